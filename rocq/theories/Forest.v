(** * Model of class Forest (/repo/src/mesh.py 1098-1769).

    A forest is the list of its trees (forests created with empty slots,
    [Forest(n_trees=k)], lines 1115-1121, are not modelled: every method of
    such a forest fails on the None entries).  The node reached from tree [i]
    along [p] has path [i :: p]. *)
From Coq Require Import List Arith Bool Lia.
Import ListNotations.
From Verif Require Import Tree.
Set Implicit Arguments.

Definition forest (A : Type) := list (node A).

Fixpoint index_from {X} (i : nat) (l : list X) : list (nat * X) :=
  match l with [] => [] | x :: r => (i, x) :: index_from (S i) r end.
(** roots with their paths *)
Definition roots {A} (f : forest A) : list (path * node A) :=
  map (fun ix => ([fst ix], snd ix)) (index_from 0 f).

Definition fget {A} (f : forest A) (p : path) : option (node A) :=
  match p with
  | [] => None
  | i :: r => match nth_error f i with Some t => nget t r | None => None end
  end.
Definition fupd {A} (p : path) (g : node A -> node A) (f : forest A) : forest A :=
  match p with
  | [] => f
  | i :: r => match nth_error f i with
              | Some t => set_nth i (nupd r g t) f
              | None => f
              end
  end.
(** does the node at [p] exist and carry the flag *)
Definition marked_at {A} (f : forest A) (p : path) (fl : flag) : bool :=
  match fget f p with Some n => is_marked n (Some fl) | None => false end.

Definition fsize {A} (f : forest A) : nat := fold_right (fun n s => size n + s) 0 f.

(** mesh.py 1158-1202 *)
Definition ftraverse {A} (f : forest A) (fl : option flag) (md : mode) : list (path * node A) :=
  trav (S (fsize f)) md fl
       (match md with DepthFirst => rev (roots f) | BreadthFirst => roots f end).

(** mesh.py 1205-1240 *)
Definition fget_leaves {A} (f : forest A) (fl sf : option flag) (md : mode)
  : list (path * node A) :=
  let leaves := filter (fun c => negb (has_children (snd c) sf)) (ftraverse f sf md) in
  match fl with
  | None => leaves
  | Some _ => filter (fun c => is_marked (snd c) fl) leaves
  end.

(** mesh.py 1146-1155 *)
Definition fdepth {A} (f : forest A) : nat :=
  fold_left (fun cur t => let d := tree_depth t None in if cur <? d then d else cur) f 0.

(** mesh.py 1371-1392.  With [reverse] and a flag the code filters by
    [is_marked()] (any label) and then falls off the end: it returns None. *)
Definition fget_children {A} (f : forest A) (fl : option flag) (reverse : bool)
  : option (list (path * node A)) :=
  match reverse, fl with
  | false, None => Some (roots f)
  | false, Some _ => Some (filter (fun c => is_marked (snd c) fl) (roots f))
  | true, None => Some (rev (roots f))
  | true, Some _ => None
  end.

(** ** Rooting, mesh.py 1243-1321 *)

(** proper, non-empty prefixes of a path, longest first: the successive values
    of [ancestor] in the loop [while ancestor.has_parent()] (roots of a forest
    have no parent) *)
Fixpoint anc_up (n : nat) (p : path) : list path :=
  match n with
  | 0 => []
  | S n' => let a := removelast p in
            match a with [] => [] | _ => a :: anc_up n' a end
  end.
Definition ancestors (p : path) : list path := anc_up (length p) p.

(** mesh.py 536-541 / 577-582: [recursive=True, reverse=True] marks the node and
    then its parent, recursively up to the root *)
Definition mark_up {A} (fl : flag) (p : path) (f : forest A) : forest A :=
  fold_left (fun f a => fupd a (mark_here fl) f) (p :: ancestors p) f.
Definition unmark_up {A} (fl : option flag) (p : path) (f : forest A) : forest A :=
  fold_left (fun f a => fupd a (unmark_here fl) f) (p :: ancestors p) f.

Definition mark_self_and_kids {A} (fl : flag) (n : node A) : node A :=
  map_kids (mark_here fl) (mark_here fl n).

(** body of the loop 1258-1273 for one visited node *)
Definition root_step {A} (fl : flag) (f : forest A) (p : path) : forest A :=
  if marked_at f p fl
  then fold_left (fun f a => fupd a (mark_self_and_kids fl) f) (ancestors p) f
  else f.
(** 1253-1273 for one root.  The generator [root_node.traverse()] is lazy, but
    marking never changes the shape, so the list of visited nodes is that of
    the tree at the start of the loop. *)
Definition root_one {A} (fl : flag) (f : forest A) (i : nat) : forest A :=
  let f1 := fupd [i] (mark_here fl) f in
  match nth_error f1 i with
  | None => f1
  | Some t => fold_left (root_step fl) (map fst (traverse [i] t None DepthFirst)) f1
  end.
Definition root_subtrees {A} (fl : flag) (f : forest A) : forest A :=
  fold_left (root_one fl) (seq 0 (length f)) f.

(** mesh.py 1276-1321; the nested loops with early [return False] are nested
    [forallb]s *)
Definition subtrees_rooted {A} (fl : option flag) (f : forest A) : bool :=
  match fl with
  | None => true
  | Some g =>
    forallb (fun r =>
      is_marked (snd r) fl &&
      forallb (fun c =>
        if is_marked (snd c) fl then
          forallb (fun a =>
             match fget f a with
             | None => false
             | Some n => is_marked n fl &&
                 forallb (fun k => is_marked (snd k) fl) (get_children a n None false)
             end) (ancestors (fst c))
        else true)
        (traverse (fst r) (snd r) None DepthFirst))
      (roots f)
  end.

(** ** Tree-level rooting on a free-standing tree, mesh.py 911-955 (as a forest
    with one tree: the address prefix [0] stands for the root) *)
Definition make_rooted_subtree {A} (fl : flag) (t : node A) : node A :=
  let step f p := if marked_at f p fl
                  then fold_left (fun f a => fupd a (mark_here fl) f) (ancestors p) f
                  else f in
  match fold_left step (map fst (traverse [0] t None BreadthFirst)) [t] with
  | [t'] => t'
  | _ => t
  end.
Definition is_rooted_subtree {A} (fl : flag) (t : node A) : bool :=
  forallb (fun c =>
    if is_marked (snd c) (Some fl)
    then forallb (fun a => marked_at [t] a fl) (ancestors (fst c)) else true)
    (traverse [0] t None BreadthFirst).

(** mesh.py 1325-1343.  The loop pops the address entries; when the current
    node has no children the entry is *ignored* and the loop goes on.
    [None] results of [get_child] raise AttributeError at the next entry. *)
Fixpoint ffind_from {A} (o : option (node A)) (addr : path) : res (option (node A)) :=
  match addr with
  | [] => Ok o
  | a :: r =>
      match o with
      | None => Err AttributeError
      | Some n =>
          if has_children n None then
            match nth_error (n_slots n) a with
            | None => Ok None
            | Some o' => ffind_from o' r
            end
          else ffind_from o r
      end
  end.
(** The result for the empty address is the forest itself ([inr tt]). *)
Definition ffind_node {A} (f : forest A) (addr : path) : res (option (node A) + unit) :=
  match addr with
  | [] => Ok (inr tt)
  | a :: r =>
      match f with
      | [] => (* no trees: every entry is skipped, the forest is returned *) Ok (inr tt)
      | _ => match nth_error f a with
             | None => Ok (inl None)
             | Some t => bind (ffind_from (Some t) r) (fun o => Ok (inl o))
             end
      end
  end.

(** mesh.py 465-474 *)
Definition plant {A} (i : nat) (t : node A) : res (node A) :=
  let 'Node m d ks := t in
  if ntype_eqb (m_type m) ROOT
  then Ok (Node (mkMeta (m_type m) (m_depth m) [i] (Some i) (m_flags m) (m_regular m)) d ks)
  else Err AssertionError.
(** mesh.py 1395-1402 *)
Definition add_tree {A} (t : node A) (f : forest A) : res (forest A) :=
  bind (plant (length f) t) (fun t' => Ok (f ++ [t'])).
(** mesh.py 1405-1415, nonnegative positions *)
Fixpoint del_nth {X} (i : nat) (l : list X) : list X :=
  match l, i with [], _ => [] | _ :: r, 0 => r | x :: r, S j => x :: del_nth j r end.
Definition remove_tree {A} (i : nat) (f : forest A) : res (forest A) :=
  if i <? length f then Ok (del_nth i f) else Err AssertionError.

(** mesh.py 1418-1423 *)
Definition record_flag {A} (fl : flag) (f : forest A) : forest A := map (mark_rec fl) f.

(** mesh.py 1426-1459 *)
Definition fcoarsen {A} (sf cf nl : option flag) (clean : bool) (f : forest A) : forest A :=
  let f1 := match sf with Some s => root_subtrees s f | None => f end in
  map (coarsen sf cf nl clean) f1.

(** ** Forest.refine, mesh.py 1651-1723 *)
Definition label_kids {A} (sf nl : option flag) (n : node A) : node A :=
  match nl, sf with
  | None, None => n
  | None, Some s => map_kids (mark_here s) n
  | Some l, _ => map_kids (mark_here l) n
  end.
(** the loop body for one leaf, as a change of that leaf object only *)
Definition refine_leaf {A} (kid : nat -> nat -> A -> A) (sf rf nl : option flag) (clean : bool)
  (n : node A) : res (node A) :=
  let n1 := match nl with Some l => mark_here l n | None => n end in
  if (match rf with Some _ => negb (is_marked n1 rf) | None => false end) then Ok n1
  else
    bind (if has_children n1 None then Ok n1 else split kid n1) (fun n2 =>
    let n3 := label_kids sf nl n2 in
    Ok (match rf with
        | Some _ => if clean then unmark_here rf n3 else n3
        | None => n3 end)).
Definition refine_step {A} kid sf rf nl clean (f : forest A) (p : path) : res (forest A) :=
  match fget f p with
  | None => Err AttributeError
  | Some n => bind (refine_leaf kid sf rf nl clean n) (fun n' => Ok (fupd p (fun _ => n') f))
  end.
Definition refine {A} (kid : nat -> nat -> A -> A) (sf rf nl : option flag) (clean : bool)
  (f : forest A) : res (forest A) :=
  let f1 := match sf with Some s => root_subtrees s f | None => f end in
  bind (fold_res (refine_step kid sf rf nl clean)
                 (map fst (fget_leaves f1 None sf BreadthFirst)) f1)
       (fun f2 => Ok (match nl with Some l => root_subtrees l f2 | None => f2 end)).

(** mesh.py 618-632: [get_parent(flag)], the nearest proper ancestor with the flag *)
Definition get_parent_flag {A} (f : forest A) (p : path) (fl : option flag) : option path :=
  find (fun a => match fget f a with
                 | Some n => match fl with None => true | Some _ => is_marked n fl end
                 | None => false end) (ancestors p).
(** mesh.py 975-989; the loop stops at depth 0 *)
Definition nearest_ancestor {A} (f : forest A) (p : path) (fl : option flag) : option path :=
  match fl with
  | None => Some p
  | Some _ => find (fun a => match fget f a with Some n => is_marked n fl | None => false end)
                   (p :: ancestors p)
  end.
(** mesh.py 992-1008: containment compares objects (paths) after climbing from
    [q] to the depth of [p] *)
Fixpoint climb_eq (k : nat) (p q : path) : bool :=
  match k with
  | 0 => false
  | S k' => if length p <? length q
            then let q' := removelast q in
                 if list_eq_dec Nat.eq_dec p q' then true else climb_eq k' p q'
            else false
  end.
Definition contains (p q : path) : bool :=
  if length q <? length p then false
  else if list_eq_dec Nat.eq_dec p q then true
  else climb_eq (length q) p q.

(** mesh.py 1726-1769; [reference_flag=None] makes [is_marked(None)] test for
    any label and [get_parent(None)] return the parent *)
Definition is_contained_in {A} (f : forest A) (test ref : option flag) : bool :=
  match test with
  | None => true
  | Some t =>
      if (match ref with Some r => Nat.eqb r t | None => false end) then true
      else forallb (fun c =>
             if is_marked (snd c) ref then true
             else match get_parent_flag f (fst c) ref with Some _ => true | None => false end)
           (fget_leaves f None test BreadthFirst)
  end.

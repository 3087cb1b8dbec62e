(** * API histories: every public operation that changes a forest, as a step. *)
From Coq Require Import List Arith Bool.
Import ListNotations.
From Verif Require Import Tree Forest.
Set Implicit Arguments.

Section Ops.
Context {A : Type}.
Variable kid : nat -> nat -> A -> A.

Inductive op :=
| OAddTree (n : nat) (d : A)                (* Forest.add_tree of a new regular root, 1395 *)
| OAddIrregular (d : A)                     (* the same with an irregular root *)
| ORemoveLast                               (* Forest.remove_tree(n-1), 1405 *)
| OSplit (p : path)                         (* Tree.split, 794 *)
| OAddChild (p : path)                      (* Tree.add_child, 758 *)
| ODelete (p : path)                        (* Tree.delete_children(), 772 *)
| ODeleteAt (p : path) (i : nat)            (* Tree.delete_children(i) *)
| OMark (p : path) (g : flag) | OUnmark (p : path) (g : option flag)   (* 495, 549 *)
| OMarkRec (p : path) (g : flag) | OUnmarkRec (p : path) (g : option flag)
| OMarkUp (p : path) (g : flag) | OUnmarkUp (p : path) (g : option flag)
| ORoot (s : flag)                          (* Forest.root_subtrees, 1243 *)
| ORecord (s : flag)                        (* Forest.record, 1418 *)
| ORefine (sf rf nl : option flag) (clean : bool)    (* Forest.refine, 1651 *)
| OCoarsen (sf cf nl : option flag) (clean : bool).  (* Forest.coarsen, 1426 *)

(** an operation on the node at [p]; there is no such call on a missing node *)
Definition at_node (p : path) (g : node A -> res (node A)) (f : forest A) : res (forest A) :=
  match fget f p with
  | None => Err AttributeError
  | Some n => bind (g n) (fun n' => Ok (fupd p (fun _ => n') f))
  end.

Definition step (f : forest A) (o : op) : res (forest A) :=
  match o with
  | OAddTree n d => add_tree (new_root n d) f
  | OAddIrregular d => add_tree (new_irregular_root d) f
  | ORemoveLast => remove_tree (length f - 1) f
  | OSplit p => at_node p (split kid) f
  | OAddChild p => at_node p (add_child kid) f
  | ODelete p => at_node p (fun n => Ok (delete_children n)) f
  | ODeleteAt p i => at_node p (delete_child_at i) f
  | OMark p g => at_node p (fun n => Ok (mark_here g n)) f
  | OUnmark p g => at_node p (fun n => Ok (unmark_here g n)) f
  | OMarkRec p g => at_node p (fun n => Ok (mark_rec g n)) f
  | OUnmarkRec p g => at_node p (fun n => Ok (unmark_rec g n)) f
  | OMarkUp p g => Ok (mark_up g p f)
  | OUnmarkUp p g => Ok (unmark_up g p f)
  | ORoot s => Ok (root_subtrees s f)
  | ORecord s => Ok (record_flag s f)
  | ORefine sf rf nl clean => refine kid sf rf nl clean f
  | OCoarsen sf cf nl clean => Ok (fcoarsen sf cf nl clean f)
  end.

(** operations on regular trees that treat the children of an object together:
    no irregular trees and no deletion of a single child *)
Definition plain (o : op) : Prop :=
  match o with OAddIrregular _ | OAddChild _ | ODeleteAt _ _ => False | _ => True end.

(** a history stops at the first exception *)
Definition run (f : forest A) (l : list op) : res (forest A) := fold_res step l f.
End Ops.

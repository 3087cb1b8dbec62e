(** Concrete trees and forests used to show that hypotheses are satisfiable. *)
From Coq Require Import List Arith Bool.
Import ListNotations.
From Verif Require Import Tree Forest.

Definition ukid (i n : nat) (d : unit) : unit := tt.
Definition usplit (n : node unit) : node unit :=
  match split ukid n with Ok n' => n' | Err _ => n end.
(** binary root, split; left child split; its right child split; labels 1 and 2 *)
Definition ex_t0 : node unit := new_root 2 tt.
Definition ex_t1 : node unit := usplit ex_t0.
Definition ex_t2 : node unit := nupd [0] usplit ex_t1.
Definition ex_t3 : node unit := nupd [0; 1] usplit ex_t2.
Definition ex_t4 : node unit := nupd [0; 1; 0] (mark_here 1) (nupd [1] (mark_here 2) ex_t3).
Definition of_res {X} (d : X) (r : res X) : X := match r with Ok x => x | Err _ => d end.
(** a forest of two trees *)
Definition ex_f : forest unit :=
  of_res [] (bind (add_tree ex_t1 []) (add_tree ex_t4)).

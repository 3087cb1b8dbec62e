(** * The index maps of a Basis (src/fem.py: Basis 894-1117) *)
From Coq Require Import List Arith Bool.
From Verif Require Import Tree Geom Dof.
Import ListNotations.

(** Basis.__init__, 921-931: d2i = -ones(dofs[-1] + 1); d2i[dofs] = arange(n).
    [l] is list(set of dofs) in the order in which the set is listed; an entry
    [None] of d2i is -1. *)
Definition assign_index (acc : list (option nat) * nat) (d : nat) : res (list (option nat) * nat) :=
  if d <? length (fst acc) then Ok (set_nth d (Some (snd acc)) (fst acc), S (snd acc)) else Err IndexError.
Definition basis_init (l : list nat) : res (list (option nat) * list nat) :=
  match l with
  | [] => Err IndexError
  | _ => bind (fold_res assign_index l (repeat None (S (last l 0)), 0)) (fun acc => Ok (fst acc, l))
  end.
(** Basis.d2i, 1105-1109, and Basis.i2d, 1112-1116, for one index *)
Definition basis_d2i (b : list (option nat) * list nat) (d : nat) : res (option nat) :=
  match nth_error (fst b) d with Some o => Ok o | None => Err IndexError end.
Definition basis_i2d (b : list (option nat) * list nat) (i : nat) : res nat :=
  match nth_error (snd b) i with Some d => Ok d | None => Err IndexError end.

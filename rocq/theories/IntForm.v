(** * Assembly of integral operators (src/assembler.py: the double loop of
    Assembler.assemble 2417-2450 for IPForm, and IIForm 2404-2415)

    As in [Assemble.v]: what eval returns is an argument; one sample.  Simplification:
    all local matrices of a cell are computed before they are stored. *)
From Coq Require Import List Arith Bool QArith.
From Verif Require Import Tree Solver Assemble.
Import ListNotations.
Open Scope Q_scope.

(** form_loc.T of a matrix (2 dimensions: one sample, 1690-1693) *)
Definition transposed (r c : nat) (M : mat) : mat := tab c r (fun i j => entry M j i).

Section Pairs.
(** sym: form.kernel.is_symmetric(); tst, trl: form.test.dofs, form.trial.dofs;
    loc ci cj: IPForm.eval((ci, cj), ...), None if one of the cells has no region *)
Context (sym : bool) (tst trl : nat -> list nat) (loc : nat -> nat -> option mat).
(** 2422-2450: the loop over cj.  update_cellwise of None: AttributeError (4086) *)
Fixpoint ip_loop (ci : nat) (cjs : list nat) : res (list local) :=
  match cjs with
  | [] => Ok []
  | cj :: rest =>
    match loc ci cj with
    | None => Err AttributeError
    | Some M =>
      let l := Bilinear (tst ci) (trl cj) M in
      if sym then
        if (ci =? cj)%nat then Ok [l]
        else bind (ip_loop ci rest) (fun ls =>
             Ok (l :: Bilinear (trl cj) (tst ci) (transposed (length (tst ci)) (length (trl cj)) M) :: ls))
      else bind (ip_loop ci rest) (fun ls => Ok (l :: ls))
    end
  end.
(** 2361: the loop over ci *)
Definition ip_cells (cells : list nat) : res (list (nat * list local)) :=
  map_res (fun ci => bind (ip_loop ci cells) (fun ls => Ok (ci, ls))) cells.
(** assemble of a problem that consists of one IPForm *)
Definition ip_assemble order hng dir fuel keep (cells : list nat) : res (aforms * arrays) :=
  bind (ip_cells cells) (fun cs => assemble order hng dir fuel keep cs (init_forms [2%nat])).
End Pairs.

(** 2404-2415: an IIForm stores the matrix of all interpolation points (all dofs of
    the test space) by the trial dofs of the cell; None as above *)
Definition ii_cells (all : list nat) (trl : nat -> list nat) (loc : nat -> option mat) (cells : list nat) : res (list (nat * list local)) :=
  map_res (fun ci => match loc ci with None => Err AttributeError | Some M => Ok (ci, [Bilinear all (trl ci) M]) end) cells.
Definition ii_assemble order hng dir fuel keep all trl loc (cells : list nat) : res (aforms * arrays) :=
  bind (ii_cells all trl loc cells) (fun cs => assemble order hng dir fuel keep cs (init_forms [2%nat])).

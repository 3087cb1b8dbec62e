(** * Specification for integral operators *)
From Coq Require Import List Arith Bool QArith.
From Verif Require Import Tree Solver SpecSolver Assemble SpecAssemble.
Import ListNotations.
Open Scope Q_scope.

(** The value of the form at two vectors *)
Definition pair_form (tst trl : nat -> list nat) (M : nat -> nat -> mat) (cells : list nat) (v x : vec) : Q :=
  total (fun ci => total (fun cj =>
    sum (length (tst ci)) (fun i => sum (length (trl cj)) (fun j =>
      v (nth i (tst ci) 0%nat) * entry (M ci cj) i j * x (nth j (trl cj) 0%nat)))) cells) cells.
(** interpolation: every row is an interpolation point *)
Definition collocation_form (all : list nat) (trl : nat -> list nat) (M : nat -> mat) (cells : list nat) (v x : vec) : Q :=
  total (fun ci => sum (length all) (fun i => sum (length (trl ci)) (fun j =>
      v (nth i all 0%nat) * entry (M ci) i j * x (nth j (trl ci) 0%nat)))) cells.

(** The matrix of a form a(v, x): rows and columns are unconstrained dofs; restricted
    to vectors that satisfy the constraints the matrix and the Dirichlet term are the form *)
Definition matrix_of_form (a : vec -> vec -> Q) hng dir (R : arrays2) : Prop :=
  NoDup (m_rows R) /\ NoDup (m_cols R) /\ Forall (unconstrained hng dir) (m_rows R) /\ Forall (unconstrained hng dir) (m_cols R) /\
  shape (length (m_rows R)) (length (m_cols R)) (m_mat R) = true /\
  (forall x0, m_x0 R = Some x0 -> length x0 = length (m_rows R)) /\
  forall v x, test_space hng dir v -> trial_space hng dir x ->
    sum (length (m_rows R)) (fun i => sum (length (m_cols R)) (fun j =>
        v (nth i (m_rows R) 0%nat) * entry (m_mat R) i j * x (nth j (m_cols R) 0%nat))) +
    sum (length (m_rows R)) (fun i => v (nth i (m_rows R) 0%nat) * match m_x0 R with Some x0 => nth i x0 0 | None => 0 end)
    == a v x.

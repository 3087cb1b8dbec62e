(** * Specification for linear systems with constraints

    Vectors are functions on the indices below n.  A constraint says that the
    value at one dof is an affine combination of values at supporting dofs (a
    Dirichlet condition has no supporting dofs).  The discrete problem is the
    constrained Galerkin problem: find x that satisfies the constraints with
    v.(A x) = v.b for every v that satisfies the homogeneous constraints. *)
From Coq Require Import List Arith Bool QArith.
From Verif Require Import Solver.
Import ListNotations.
Open Scope Q_scope.

Definition vec := nat -> Q.
Definition dot (n : nat) (v w : vec) : Q := sum n (fun i => v i * w i).
Definition mulv (n : nat) (A : mat) (x : vec) : vec := fun i => sum n (fun j => entry A i j * x j).

Definition combination (x : vec) (l : list (nat * Q)) : Q :=
  fold_right Qplus 0 (map (fun p => snd p * x (fst p)) l).
Definition fulfils (x : vec) (c : constraint) : Prop := x (c_dof c) == combination x (c_supp c) + c_aff c.
Definition homogeneous (v : vec) (c : constraint) : Prop := v (c_dof c) == combination v (c_supp c).

Definition solves (n : nat) (A : mat) (b : vec) (cs : list constraint) (x : vec) : Prop :=
  (forall c, In c cs -> fulfils x c) /\
  (forall v, (forall c, In c cs -> homogeneous v c) -> dot n v (mulv n A x) == dot n v b).

(** Column j of an array *)
Definition column (M : mat) (j : nat) : vec := fun i => entry M i j.

(** The external solver only returns solutions *)
Definition exact_solver (n : nat) (solver : mat -> nat -> mat -> option mat) : Prop :=
  forall A m b u, solver A m b = Some u ->
    shape n m u = true /\
    forall i j, (i < n)%nat -> (j < m)%nat -> mulv n A (column u j) i == entry b i j.

(** Lists of constraints: all indices below n; first the hanging nodes [hs]
    (distinct, not supported by each other, no affine term), then the Dirichlet
    conditions [ds], which may be repeated but do not contradict each other and
    do not constrain a hanging node. *)
Definition in_range (n : nat) (c : constraint) : Prop :=
  (c_dof c < n)%nat /\ forall p, In p (c_supp c) -> (fst p < n)%nat.
Definition proper (n : nat) (hs ds : list constraint) : Prop :=
  Forall (in_range n) (hs ++ ds) /\
  NoDup (map c_dof hs) /\
  (forall c c' p, In c hs -> In c' hs -> In p (c_supp c) -> fst p <> c_dof c') /\
  Forall (fun c => c_aff c == 0) hs /\
  Forall (fun c => c_supp c = []) ds /\
  (forall c c', In c ds -> In c' ds -> c_dof c = c_dof c' -> c_aff c == c_aff c') /\
  (forall c c', In c hs -> In c' ds -> c_dof c <> c_dof c').

(** No load at the hanging nodes after the first *)
Definition one_load (b : mat) (m : nat) (hs : list constraint) : Prop :=
  forall c j, In c (tl hs) -> (j < m)%nat -> entry b (c_dof c) j == 0.

Definition symmetric (n : nat) (A : mat) : Prop :=
  forall i j, (i < n)%nat -> (j < n)%nat -> entry A i j == entry A j i.
(** x.(A x) > 0 for all nonzero x that satisfy the homogeneous constraints *)
Definition positive (n : nat) (A : mat) (cs : list constraint) : Prop :=
  forall x, (forall c, In c cs -> homogeneous x c) -> (exists i, (i < n)%nat /\ ~ x i == 0) ->
    0 < dot n x (mulv n A x).
(** A x = 0 only for x = 0 *)
Definition nonsingular (n : nat) (A : mat) : Prop :=
  forall x, (forall i, (i < n)%nat -> mulv n A x i == 0) -> forall i, (i < n)%nat -> x i == 0.

(** ** Sessions
    Dirichlet conditions added by successive calls; solve_system called with
    successive right hand sides (m columns, array, factor flag), collecting
    the solution after each call. *)
Definition dirichlet (dvs : list (list (nat * Q))) : list constraint :=
  map (fun p => mkC (fst p) [] (snd p)) (concat dvs).
Definition add_all (dvs : list (list (nat * Q))) (s : lsys) : lsys :=
  fold_left (fun s dv => add_dirichlet_constraint dv s) dvs s.
Fixpoint solve_all (solver : mat -> nat -> mat -> option mat) (l : list (nat * mat * bool)) (s : lsys)
    : Tree.res (list (option (nat * mat))) :=
  match l with
  | [] => Tree.Ok []
  | (m, b, f) :: r =>
      Tree.bind (solve_system solver (Some (m, b)) f s) (fun s' =>
      Tree.bind (solve_all solver r s') (fun us => Tree.Ok (l_u s' :: us)))
  end.
(** A solver that proposes one array and returns it if it is a solution *)
Definition guess (n : nat) (cand : mat) (A : mat) (m : nat) (b : mat) : option mat :=
  if shape n m cand && forallb (fun i => forallb (fun j => Qeq_bool (mulv n A (column cand j) i) (entry b i j)) (seq 0 m)) (seq 0 n)
  then Some cand else None.

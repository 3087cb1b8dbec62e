(** * Specification for assembly

    The global forms are the sums of the local forms over the cells; vectors are
    functions on dofs.  The discrete problem: find u that satisfies the
    constraints (hanging nodes and Dirichlet conditions) with
    a(v, u) = l(v) for every v that satisfies the homogeneous constraints. *)
From Coq Require Import List Arith Bool QArith.
From Verif Require Import Solver SpecSolver Assemble.
Import ListNotations.
Open Scope Q_scope.

Definition total {X} (f : X -> Q) (l : list X) : Q := fold_right Qplus 0 (map f l).

Definition bilinear_local (v x : vec) (f : local) : Q :=
  match f with
  | Bilinear t u M => sum (length t) (fun i => sum (length u) (fun j => v (nth i t 0%nat) * entry M i j * x (nth j u 0%nat)))
  | _ => 0
  end.
Definition linear_local (v : vec) (f : local) : Q :=
  match f with
  | Linear t l => sum (length t) (fun i => v (nth i t 0%nat) * nth i l 0)
  | _ => 0
  end.
Definition constant_local (f : local) : Q := match f with Constant c => c | _ => 0 end.
Definition over_cells (g : local -> Q) (cells : list (nat * list local)) : Q :=
  total (fun c => total g (snd c)) cells.

(** The constraints of a problem *)
Definition constraints (hng : list (nat * list (nat * Q))) (dir : list (nat * Q)) : list constraint :=
  map (fun h => mkC (fst h) (snd h) 0) hng ++ map (fun d => mkC (fst d) [] (snd d)) dir.
Definition test_space hng dir (v : vec) : Prop := forall c, In c (constraints hng dir) -> homogeneous v c.
Definition trial_space hng dir (x : vec) : Prop := forall c, In c (constraints hng dir) -> fulfils x c.
Definition galerkin_solution (cells : list (nat * list local)) hng dir (u : vec) : Prop :=
  trial_space hng dir u /\
  forall v, test_space hng dir v -> over_cells (bilinear_local v u) cells == over_cells (linear_local v) cells.

(** The order in which a set is listed: every element once, the largest last;
    [canonical]: moreover equal sets are listed in the same order *)
Definition lists_sets (order : list nat -> list nat) : Prop :=
  forall l, NoDup (order l) /\ (forall d, In d (order l) <-> In d l) /\ (forall d, In d l -> (d <= last (order l) 0)%nat).
Definition canonical (order : list nat -> list nat) : Prop :=
  forall l l', (forall d, In d l <-> In d l') -> order l = order l'.

(** Forms of a problem: every cell has the forms of all given dimensions *)
Definition kind (f : local) : nat := match f with Constant _ => 0 | Linear _ _ => 1 | Bilinear _ _ _ => 2 end.
Definition form_shape (f : local) : Prop :=
  match f with Constant _ => True | Linear t v => length v = length t | Bilinear t u M => shape (length t) (length u) M = true end.
Definition problem (dims : list nat) (cells : list (nat * list local)) : Prop :=
  NoDup (map fst cells) /\
  Forall (fun c => map kind (snd c) = dims /\ Forall form_shape (snd c)) cells.
(** test and trial dofs are the dofs of the cell, for all forms *)
Definition galerkin (cells : list (nat * list local)) : Prop :=
  Forall (fun c => exists D, Forall (fun f => match f with Constant _ => True | Linear t _ => t = D | Bilinear t u _ => t = D /\ u = D end) (snd c)) cells.

(** No hanging node supports itself, directly or through others *)
Definition acyclic (hng : list (nat * list (nat * Q))) : Prop :=
  exists rank : nat -> nat, forall h p, In h hng -> In p (snd h) -> (rank (fst p) < rank (fst h))%nat.

(** The external solver for square systems with one right hand side *)
Definition exact_spsolve (solver : mat -> nat -> mat -> option mat) : Prop :=
  forall n A b u, shape n n A = true -> shape n 1 b = true -> solver A 1%nat b = Some u ->
    shape n 1 u = true /\ forall i, (i < n)%nat -> mulv n A (column u 0) i == entry b i 0.

Definition test_dofs (f : local) : list nat := match f with Constant _ => [] | Linear t _ => t | Bilinear t _ _ => t end.
(** A dof of a cell, and a dof without constraint *)
Definition cell_dof (cells : list (nat * list local)) (d : nat) : Prop := exists c f, In c cells /\ In f (snd c) /\ In d (test_dofs f).
Definition unconstrained (hng : list (nat * list (nat * Q))) (dir : list (nat * Q)) (d : nat) : Prop :=
  ~ In d (map fst hng) /\ ~ In d (map fst dir).

(** What the assembled arrays are: the forms restricted to the test space and to
    the trial space, in terms of the values at the unconstrained dofs.  The
    Dirichlet values contribute the vector x0. *)
Definition vector_of (cells : list (nat * list local)) hng dir (R : arrays1) : Prop :=
  NoDup (v_dofs R) /\ Forall (unconstrained hng dir) (v_dofs R) /\ length (v_vec R) = length (v_dofs R) /\
  forall v, test_space hng dir v ->
    sum (length (v_dofs R)) (fun i => v (nth i (v_dofs R) 0%nat) * nth i (v_vec R) 0) == over_cells (linear_local v) cells.
Definition matrix_of (cells : list (nat * list local)) hng dir (R : arrays2) : Prop :=
  NoDup (m_rows R) /\ NoDup (m_cols R) /\ Forall (unconstrained hng dir) (m_rows R) /\ Forall (unconstrained hng dir) (m_cols R) /\
  shape (length (m_rows R)) (length (m_cols R)) (m_mat R) = true /\
  (forall x0, m_x0 R = Some x0 -> length x0 = length (m_rows R)) /\
  forall v x, test_space hng dir v -> trial_space hng dir x ->
    sum (length (m_rows R)) (fun i => sum (length (m_cols R)) (fun j =>
        v (nth i (m_rows R) 0%nat) * entry (m_mat R) i j * x (nth j (m_cols R) 0%nat))) +
    sum (length (m_rows R)) (fun i => v (nth i (m_rows R) 0%nat) * match m_x0 R with Some x0 => nth i x0 0 | None => 0 end)
    == over_cells (bilinear_local v x) cells.

(** Everything lives on the dofs below n; hanging nodes are supported by nodes that
    are not hanging; no dof is both hanging and Dirichlet *)
Definition well_posed (n : nat) (cells : list (nat * list local)) (hng : list (nat * list (nat * Q))) (dir : list (nat * Q)) : Prop :=
  (forall d, cell_dof cells d -> (d < n)%nat) /\
  (forall h, In h hng -> (fst h < n)%nat /\ forall p, In p (snd h) -> (fst p < n)%nat /\ ~ In (fst p) (map fst hng)) /\
  (forall d, In d dir -> (fst d < n)%nat /\ ~ In (fst d) (map fst hng)) /\
  NoDup (map fst hng) /\ NoDup (map fst dir).

Definition unit_vec (k : nat) : vec := fun i => if (i =? k)%nat then 1 else 0.
(** The Dirichlet values, 0 at the other dofs *)
Definition dirichlet_values (dir : list (nat * Q)) : vec := fun d => match lookup d dir with Some g => g | None => 0 end.

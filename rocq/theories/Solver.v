(** * Linear systems with constraints (src/solver.py: LinearSystem 31-904)

    Matrices are dense lists of rows over Q (the code: scipy sparse matrices
    over floats); a right hand side is an (n,m) matrix, one column per sample
    (set_rhs turns a vector into an (n,1) matrix, 668-672).  The solution of a
    linear system by scipy/CHOLMOD is a parameter [solver]: it returns a
    solution or reports failure. *)
From Coq Require Import List Arith Bool QArith.
From Verif Require Import Tree Geom Dof.
Import ListNotations.
Open Scope Q_scope.

Definition mat := list (list Q).
Definition entry (M : mat) (i j : nat) : Q := nth j (nth i M []) 0.
Definition tab (r c : nat) (f : nat -> nat -> Q) : mat :=
  map (fun i => map (f i) (seq 0 c)) (seq 0 r).
Definition sum (n : nat) (f : nat -> Q) : Q := fold_right Qplus 0 (map f (seq 0 n)).
Definition shape (r c : nat) (M : mat) : bool :=
  (length M =? r)%nat && forallb (fun row => (length row =? c)%nat) M.

(** One entry of the dictionary dofhandler.constraints (fem.py 1201-1204: four
    parallel lists, always extended together by fem.py 2560-2563 and solver.py
    288-292): constrained dof, zip(supporting dofs, coefficients), affine term *)
Record constraint := mkC { c_dof : nat; c_supp : list (nat * Q); c_aff : Q }.

(** The attributes of a LinearSystem; [l_cons] is dofhandler.constraints,
    [l_inv] the matrix whose factorization is stored in __invA. *)
Record lsys := mkS {
  l_dofs : list nat; l_d2e : list nat; l_cons : list constraint;
  l_A : option mat; l_b : option (nat * mat); l_b_constrained : bool;
  l_C : option mat; l_d : list Q; l_rec : list (list Q);
  l_inv : option mat; l_u : option (nat * mat) }.

Definition n_eqns (s : lsys) : nat := length (l_dofs s).

(** LinearSystem.__init__, 92-104: dof2eqn = zeros(dofs[-1]+1);
    dof2eqn[dofs] = arange(n) *)
Definition assign_eqn (acc : list nat * nat) (d : nat) : res (list nat * nat) :=
  if (d <? length (fst acc))%nat then Ok (set_nth d (snd acc) (fst acc), S (snd acc)) else Err IndexError.
Definition make_d2e (dofs : list nat) : res (list nat) :=
  match dofs with
  | [] => Err IndexError
  | _ => bind (fold_res assign_eqn dofs (repeat 0%nat (S (last dofs 0%nat)), 0%nat)) (fun acc => Ok (fst acc))
  end.

(** LinearSystem.dof2eqn, 148-152, for one dof *)
Definition dof2eqn (s : lsys) (d : nat) : res nat :=
  match nth_error (l_d2e s) d with Some k => Ok k | None => Err IndexError end.

Fixpoint map_res {X Y} (f : X -> res Y) (l : list X) : res (list Y) :=
  match l with
  | [] => Ok []
  | x :: r => bind (f x) (fun y => bind (map_res f r) (fun ys => Ok (y :: ys)))
  end.

(** LinearSystem.set_matrix, 351-372 *)
Definition set_matrix (A : option mat) (s : lsys) : res lsys :=
  match A with
  | Some M => if shape (n_eqns s) (n_eqns s) M then
      Ok (mkS (l_dofs s) (l_d2e s) (l_cons s) (Some M) (l_b s) (l_b_constrained s) (l_C s) (l_d s) (l_rec s) None (l_u s))
      else Err AssertionError
  | None => Ok (mkS (l_dofs s) (l_d2e s) (l_cons s) None (l_b s) (l_b_constrained s) (l_C s) (l_d s) (l_rec s) None (l_u s))
  end.

(** LinearSystem.set_rhs, 649-676; [Some (m, b)] is an (n,m) array *)
Definition set_rhs (b : option (nat * mat)) (s : lsys) : res lsys :=
  match b with
  | Some (m, B) => if shape (n_eqns s) m B then
      Ok (mkS (l_dofs s) (l_d2e s) (l_cons s) (l_A s) (Some (m, B)) false (l_C s) (l_d s) (l_rec s) (l_inv s) (l_u s))
      else Err AssertionError
  | None => Ok (mkS (l_dofs s) (l_d2e s) (l_cons s) (l_A s) None false (l_C s) (l_d s) (l_rec s) (l_inv s) (l_u s))
  end.

(** LinearSystem.__init__, 66-124, on a basis whose dofs are [dofs]; [cons] is
    what dofhandler.constraints holds after set_hanging_nodes (line 110) *)
Definition linear_system (dofs : list nat) (cons : list constraint) (A : option mat)
    (b : option (nat * mat)) : res lsys :=
  bind (make_d2e dofs) (fun d2e =>
  bind (set_matrix A (mkS dofs d2e cons None None false None [] [] None None)) (set_rhs b)).

(** LinearSystem.add_dirichlet_constraint, 287-292, once the dofs of the region
    and the values of the Dirichlet function at their vertices are known *)
Definition add_dirichlet_constraint (dv : list (nat * Q)) (s : lsys) : lsys :=
  mkS (l_dofs s) (l_d2e s) (l_cons s ++ map (fun p => mkC (fst p) [] (snd p)) dv)
    (l_A s) (l_b s) (l_b_constrained s) (l_C s) (l_d s) (l_rec s) (l_inv s) (l_u s).

(** d[c_dofs] = affine_terms, 345: an index beyond the array is an IndexError,
    the last value given to an index is kept *)
Definition assign_aff (d : list Q) (c : constraint) : res (list Q) :=
  if (c_dof c <? length d)%nat then Ok (set_nth (c_dof c) (c_aff c) d) else Err IndexError.

(** The triplets (row, column, value) of set_constraint_relation, 314-327 *)
Definition triplets (s : lsys) : res (list (nat * nat * Q)) :=
  bind (map_res (fun c => map_res (fun p =>
           bind (dof2eqn s (c_dof c)) (fun r => bind (dof2eqn s (fst p)) (fun k => Ok (r, k, snd p))))
           (c_supp c)) (l_cons s))
       (fun l => Ok (concat l)).

(** coo_matrix: the values of repeated positions are added up *)
Definition coo_entry (t : list (nat * nat * Q)) (i j : nat) : Q :=
  fold_right Qplus 0 (map snd (filter (fun p => (fst (fst p) =? i)%nat && (snd (fst p) =? j)%nat) t)).

(** LinearSystem.set_constraint_relation, 295-348 *)
Definition set_constraint_relation (s : lsys) : res lsys :=
  let n := n_eqns s in
  bind (triplets s) (fun t =>
  bind (map_res (fun c => dof2eqn s (c_dof c)) (l_cons s)) (fun ks =>
  let C := tab n n (fun i j => coo_entry t i j +
             (if (i =? j)%nat then (if existsb (Nat.eqb i) ks then 0 else 1) else 0)) in
  bind (fold_res assign_aff (l_cons s) (repeat 0 n)) (fun d =>
  Ok (mkS (l_dofs s) (l_d2e s) (l_cons s) (l_A s) (l_b s) (l_b_constrained s) (Some C) d (l_rec s) (l_inv s) (l_u s))))).

(** One pass of the loop of constrain_matrix, 423-499, for equation number k *)
Definition constrain_step (n : nat) (C : mat) (acc : mat * list (list Q)) (k : nat) : mat * list (list Q) :=
  let A := fst acc in
  let ak := map (fun i => entry A i k) (seq 0 n) in                                  (* A.getcol(k) *)
  let A1 := tab n n (fun i j => entry A i j + nth i ak 0 * entry C k j) in           (* A += ak.dot(ck) *)
  let A2 := tab n n (fun i j => entry A1 i j * (if (j =? k)%nat then 0 else 1)) in   (* A.dot(Imk) *)
  let A3 := tab n n (fun i j => entry A2 i j + entry C k i * entry A2 k j) in        (* A += ck.T.dot(A.getrow(k)) *)
  let A4 := tab n n (fun i j => (if (i =? k)%nat then 0 else 1) * entry A3 i j) in   (* Imk.dot(A) *)
  let A5 := tab n n (fun i j => entry A4 i j + (if (i =? k)%nat && (j =? k)%nat then 1 else 0)) in (* A += Ik *)
  (A5, snd acc ++ [ak]).

(** LinearSystem.constrain_matrix, 382-531 *)
Definition constrain_matrix (s : lsys) : res lsys :=
  let n := n_eqns s in
  match l_A s, (match l_C s, l_cons s with None, [] => Some [] | o, _ => o end) with
  | Some A, Some C =>
      bind (map_res (fun c => dof2eqn s (c_dof c)) (l_cons s)) (fun ks =>
      let acc := fold_left (constrain_step n C) ks (A, []) in
      let nc := length (l_cons s) in
      (* 505-514: a_diag, ave_vec *)
      let ave := if (nc <? n)%nat then
                   (sum n (fun i => entry (fst acc) i i) - inject_Z (Z.of_nat nc)) / inject_Z (Z.of_nat (n - nc))
                 else 1 in
      let A' := tab n n (fun i j => entry (fst acc) i j * (if existsb (Nat.eqb j) ks then ave else 1)) in
      Ok (mkS (l_dofs s) (l_d2e s) (l_cons s) (Some A') (l_b s) (l_b_constrained s) (l_C s) (l_d s) (snd acc) (l_inv s) (l_u s)))
  | _, _ => Err AttributeError
  end.

(** One pass of the loop of constrain_rhs, 723-751; [cds] is the list of
    constrained dofs, m the number of columns of b.  Raises an IndexError if
    zc[c_dofs] is out of range. *)
Definition constrain_rhs_step (s : lsys) (C : mat) (m : nat) (cds : list nat)
    (acc : mat * nat) (c : constraint) : res (mat * nat) :=
  let n := n_eqns s in
  let b := fst acc in
  bind (dof2eqn s (c_dof c)) (fun k =>
  match nth_error (l_rec s) (snd acc) with
  | None => Err IndexError
  | Some ak =>
      let b1 := tab n m (fun i j => entry b i j - nth k (l_d s) 0 * nth i ak 0) in   (* b -= d[k]*ak.dot(one) *)
      let b2 := tab n m (fun i j => entry b1 i j + entry C k i * entry b1 k j) in    (* b += ck.T.dot(bk) *)
      if forallb (fun c => (c <? n)%nat) cds then
        let b3 := tab n m (fun i j => (if existsb (Nat.eqb i) cds then 0 else 1) * entry b2 i j) in (* Izc.dot(b) *)
        Ok (b3, S (snd acc))
      else Err IndexError
  end).

(** LinearSystem.constrain_rhs, 700-753 *)
Definition constrain_rhs (s : lsys) : res lsys :=
  match l_b s with
  | None => Err AssertionError
  | Some (m, b) =>
      if l_b_constrained s then Ok s else
      match l_C s with
      | None => if match l_cons s with [] => true | _ => false end then
          Ok (mkS (l_dofs s) (l_d2e s) (l_cons s) (l_A s) (l_b s) true (l_C s) (l_d s) (l_rec s) (l_inv s) (l_u s))
          else Err AttributeError
      | Some C =>
          bind (fold_res (constrain_rhs_step s C m (map c_dof (l_cons s))) (l_cons s) (b, 0%nat)) (fun acc =>
          Ok (mkS (l_dofs s) (l_d2e s) (l_cons s) (l_A s) (Some (m, fst acc)) true (l_C s) (l_d s) (l_rec s) (l_inv s) (l_u s)))
      end
  end.

(** LinearSystem.factor_matrix, 604-646 *)
Definition factor_matrix (s : lsys) : res lsys :=
  match l_A s with
  | None => Err AssertionError
  | Some A => Ok (mkS (l_dofs s) (l_d2e s) (l_cons s) (l_A s) (l_b s) (l_b_constrained s) (l_C s) (l_d s) (l_rec s) (Some A) (l_u s))
  end.

(** LinearSystem.invert_matrix(b=None, factor), 548-602; [solver A m b] is the
    external solver (scipy spsolve/factorized or CHOLMOD), None its failure *)
Definition invert_matrix (solver : mat -> nat -> mat -> option mat) (factor : bool) (s : lsys) : res lsys :=
  match l_b s with
  | None => Err AssertionError
  | Some (m, b) =>
      if l_b_constrained s then
        bind (if factor then match l_inv s with Some _ => Ok s | None => factor_matrix s end else Ok s) (fun s =>
        match (if factor then l_inv s else l_A s) with
        | None => Err AttributeError
        | Some A =>
            match solver A m b with
            | None => Err GenericException
            | Some u => Ok (mkS (l_dofs s) (l_d2e s) (l_cons s) (l_A s) (l_b s) true (l_C s) (l_d s) (l_rec s) (l_inv s) (Some (m, u)))
            end
        end)
      else Err AssertionError
  end.

(** LinearSystem.resolve_constraints on an (n,m) array u, 762-799.  n_dofs of
    the dofhandler (779) is the number of equations. *)
Definition resolve (n m : nat) (C : mat) (d : list Q) (u : mat) : mat :=
  let ec := fun i => forallb (fun j => Qeq_bool (entry C i j) 0) (seq 0 n) in
  let u1 := tab n m (fun i j => if ec i then nth i d 0 else entry u i j) in
  tab n m (fun i j => sum n (fun l => entry C i l * entry u1 l j) + nth i d 0).
Definition resolve_constraints (s : lsys) : res lsys :=
  match l_C s, l_u s with
  | Some C, Some (m, u) =>
      Ok (mkS (l_dofs s) (l_d2e s) (l_cons s) (l_A s) (l_b s) (l_b_constrained s) (l_C s) (l_d s) (l_rec s) (l_inv s)
            (Some (m, resolve (n_eqns s) m C (l_d s) u)))
  | _, _ => Err AttributeError
  end.

(** LinearSystem.solve_system, 802-888.  matrix_is_constrained (541-545) has no
    return statement: its value is always None, so constrain_matrix runs in
    every call. *)
Definition solve_system (solver : mat -> nat -> mat -> option mat) (b : option (nat * mat)) (factor : bool)
    (s : lsys) : res lsys :=
  bind (match b with
        | None => match l_b s with None => Err AssertionError | Some _ => Ok s end
        | Some _ => set_rhs b s
        end) (fun s =>
  bind (match l_C s with None => set_constraint_relation s | Some _ => Ok s end) (fun s =>
  bind (constrain_matrix s) (fun s =>
  bind (if l_b_constrained s then Ok s else constrain_rhs s) (fun s =>
  bind (if factor then match l_inv s with Some _ => Ok s | None => factor_matrix s end else Ok s) (fun s =>
  bind (invert_matrix solver factor s) resolve_constraints))))).

(** * Specification for GaussianField: distributions, what the matrix objects
    stand for, what linalg.solve is trusted to return *)
From Coq Require Import List Reals.
From Verif Require Import Tree RMat Spd SpecSpd Gauss.
Local Open Scope R_scope.

(** F draws from N(m, S): it turns the columns of an array z with q rows into
    columns x = m + Bz with BB' = S.  (If z ~ N(0,I) then x ~ N(m, BB').) *)
Definition draws (n q : nat) (F : arr -> res arr) (m : nat -> R) (S : mat) : Prop :=
  exists B, meq n n (mmul q B (mtr B)) S /\
  forall z, a_r z = q -> exists X, F z = Ok X /\ a_r X = n /\ a_c X = a_c z /\
    forall i j, (i < n)%nat -> (j < a_c z)%nat ->
      a_m X i j = m i + sum q (fun l => B i l * a_m z l j).

Definition inverse (n : nat) (A B : mat) : Prop :=
  meq n n (mmul n A B) mid /\ meq n n (mmul n B A) mid.

(** The matrix object o stands for the matrix K: an eigendecomposition (with or
    without mass matrix) for what it reconstructs, a Cholesky decomposition for the
    positive definite matrix it was made of. *)
Inductive stands_for (lx : lapack) (n : nat) : spd -> mat -> Prop :=
| stands_eig : forall C M delta e, eig_init lx n C M delta = Ok e ->
    eigh_ok n C M (lx_eigh lx n C M) -> stands_for lx n (SEig e) (fst (eig_reconstruct e))
| stands_chol : forall C sparse c, chol_init lx n sparse C = Ok c ->
    factor_ok lx n sparse C -> definite n C -> stands_for lx n (SChol c) C.

(** ... and can be inverted: the eigenvalues of an eigendecomposition exceed the
    cut-off of the pseudo-inverse. *)
Inductive invertible (lx : lapack) (n : nat) : spd -> mat -> Prop :=
| inv_eig : forall C delta e, eig_init lx n C None delta = Ok e ->
    eigh_ok n C None (lx_eigh lx n C None) ->
    (forall i, (i < n)%nat -> eps_mach < e_d e i /\ eps_mach < sqrt (e_d e i)) ->
    invertible lx n (SEig e) (fst (eig_reconstruct e))
| inv_chol : forall C sparse c, chol_init lx n sparse C = Ok c ->
    factor_ok lx n sparse C -> definite n C -> invertible lx n (SChol c) C.

(** scipy.linalg.solve(A, b) of size k: a solution, or LinAlgError if A is singular *)
Definition solve_ok (k : nat) (A b : mat) (r : option mat) : Prop :=
  match r with
  | Some x => forall m, meq k m (mmul k A x) b
  | None => exists y, nonzero k y /\ forall i, (i < k)%nat -> mv k A y i = 0
  end.
Definition exact_solver (ls : solver) (k : nat) : Prop := forall A b, solve_ok k A b (ls k A b).

(** the rows of the k by n matrix A are linearly independent *)
Definition independent (k n : nat) (A : mat) : Prop :=
  forall y, (forall j, (j < n)%nat -> sum k (fun i => y i * A i j) = 0) ->
  forall i, (i < k)%nat -> y i = 0.

(** N(m, S) is the law of x ~ N(mu, K) given Ax = e (A has k rows): the formulas
    of the documentation of condition(), with the inverse G of AKA' *)
Definition AKAt (n : nat) (A K : mat) : mat := mmul n A (mmul n K (mtr A)).
Definition conditional (n k : nat) (A : mat) (e mu : nat -> R) (K : mat) (m : nat -> R) (S : mat) : Prop :=
  exists G, inverse k (AKAt n A K) G /\
    (forall i, (i < n)%nat ->
       m i = mu i - mv k (mmul n K (mtr A)) (mv k G (fun l => mv n A mu l - e l)) i) /\
    meq n n S (msub K (mmul k (mmul n K (mtr A)) (mmul k G (mmul n A K)))).

(** the sample that condition(output='sample') returns *)
Definition sample_of (r : res conditioned) : res arr :=
  match r with Ok (CSample X) => Ok X | Ok (CField _) => Err GenericException | Err x => Err x end.

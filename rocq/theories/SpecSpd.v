(** * Specification for src/spd.py: definiteness, square roots, what the external
    routines are trusted to return *)
From Coq Require Import List Reals Lia.
From Verif Require Import RMat Spd.
Import ListNotations.
Local Open Scope R_scope.

Definition nonzero (n : nat) (x : nat -> R) : Prop := exists i, (i < n)%nat /\ x i <> 0.
Definition symmetric (n : nat) (A : mat) : Prop := meq n n (mtr A) A.
(** x'Ax >= 0 for all x; x'Ax > 0 for all nonzero x *)
Definition semidefinite (n : nat) (A : mat) : Prop := forall x, 0 <= qf n A x.
Definition definite (n : nat) (A : mat) : Prop := forall x, nonzero n x -> 0 < qf n A x.
(** x'Ax >= c x'Mx for all x: every eigenvalue of the pair (A, M) is at least c *)
Definition bounded_below (n : nat) (A M : mat) (c : R) : Prop :=
  forall x, c * qf n M x <= qf n A x.
(** lambda is an eigenvalue of A *)
Definition eigenvalue (n : nat) (A : mat) (lambda : R) : Prop :=
  exists x, nonzero n x /\ forall i, (i < n)%nat -> mv n A x i = lambda * x i.
(** W is a square root of A *)
Definition square_root (n : nat) (A W : mat) : Prop := meq n n (mmul n W (mtr W)) A.

Definition lower (n : nat) (L : mat) : Prop :=
  forall i j, (i < n)%nat -> (j < n)%nat -> (i < j)%nat -> L i j = 0.
Definition permutation (n : nat) (p : nat -> nat) : Prop :=
  (forall i, (i < n)%nat -> (p i < n)%nat) /\
  (forall i j, (i < n)%nat -> (j < n)%nat -> p i = p j -> i = j).

(** The mass matrix, the identity if there is none *)
Definition mass (M : option mat) : mat := match M with Some X => X | None => mid end.

(** scipy.linalg.eigh(C, M) in exact arithmetic: C V = M V diag(d), V'MV = I,
    eigenvalues in increasing order *)
Definition eigh_ok (n : nat) (C : mat) (M : option mat) (r : (nat -> R) * mat) : Prop :=
  let '(d, V) := r in
  (forall i j, (i <= j)%nat -> (j < n)%nat -> d i <= d j) /\
  meq n n (mmul n (mtr V) (mmul n (mass M) V)) mid /\
  meq n n (mmul n C V) (mmul n (mass M) (mmul n V (mdiag d))).

(** scipy.linalg.cholesky(C, lower=True): the factor, or LinAlgError if C is not
    positive definite *)
Definition chol_ok (n : nat) (C : mat) (r : option mat) : Prop :=
  match r with
  | Some L => lower n L /\ (forall i, (i < n)%nat -> 0 < L i i) /\ meq n n (mmul n L (mtr L)) C
  | None => ~ definite n C
  end.

(** sksparse.cholmod.cholesky(C): an ordering p and a factor with LL' = C[p][:,p] *)
Definition cholmod_ok (n : nat) (C : mat) (r : option ((nat -> nat) * mat)) : Prop :=
  match r with
  | Some (p, L) => permutation n p /\ lower n L /\ (forall i, (i < n)%nat -> 0 < L i i) /\
                   meq n n (mmul n L (mtr L)) (fun i j => C (p i) (p j))
  | None => ~ definite n C
  end.

(** The factorization routine chosen by the sparsity of the matrix. *)
Definition factor_ok (lx : lapack) (n : nat) (sparse : bool) (C : mat) : Prop :=
  if sparse then cholmod_ok n C (lx_cholmod lx n C) else chol_ok n C (lx_chol lx n C).

(** scipy.linalg.ldl(C): C = L D L', L[p,:] is unit lower triangular, D is
    symmetric and block diagonal with blocks of size 1 and 2 *)
Definition ldl_ok (n : nat) (C : mat) (r : mat * mat * (nat -> nat)) : Prop :=
  let '(L, D, p) := r in
  permutation n p /\
  lower n (fun i j => L (p i) j) /\ (forall i, (i < n)%nat -> L (p i) i = 1) /\
  symmetric n D /\
  (forall i j, (i < n)%nat -> (j < n)%nat -> (i + 1 < j)%nat -> D i j = 0) /\
  (forall k, (k + 2 < n)%nat -> D k (k + 1)%nat <> 0 -> D (k + 1)%nat (k + 2)%nat = 0) /\
  meq n n (mmul n L (mmul n D (mtr L))) C.

(** x is, among the minimisers of |Cx - b|, the one of least norm *)
Definition residual (n : nat) (C : mat) (x b : nat -> R) : nat -> R := fun i => mv n C x i - b i.
Definition least_squares (n : nat) (C : mat) (b x : nat -> R) : Prop :=
  forall y, nsq n (residual n C x b) <= nsq n (residual n C y b) /\
            (nsq n (residual n C y b) <= nsq n (residual n C x b) -> nsq n x <= nsq n y).

(** the vectors l are an orthonormal basis of the subspace P of R^n *)
Definition inner (n : nat) (x y : nat -> R) : R := sum n (fun i => x i * y i).
Definition orthonormal_basis (n : nat) (P : (nat -> R) -> Prop) (l : list (nat -> R)) : Prop :=
  (forall k, (k < length l)%nat -> P (nth k l (fun _ => 0))) /\
  (forall k h, (k < length l)%nat -> (h < length l)%nat ->
     inner n (nth k l (fun _ => 0)) (nth h l (fun _ => 0)) = if (k =? h)%nat then 1 else 0) /\
  (forall x, P x -> exists c, forall i, (i < n)%nat ->
     x i = sum (length l) (fun k => c k * nth k l (fun _ => 0) i)).
Definition kernel (n : nat) (C : mat) (x : nat -> R) : Prop :=
  forall i, (i < n)%nat -> mv n C x i = 0.
Definition image (n : nat) (C : mat) (x : nat -> R) : Prop :=
  exists y, forall i, (i < n)%nat -> x i = mv n C y i.

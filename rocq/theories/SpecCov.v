(** * Specification for the covariance functions of src/gmrf.py *)
From Coq Require Import List Arith Reals Lia.
From Verif Require Import Tree RMat Spd SpecSpd Gauss CovFun.
Import ListNotations.
Local Open Scope R_scope.

(** The weights of the coordinates that the argument M stands for, in dimension dim: 1 if
    there is none, m for the number m >= 0 in one dimension, the diagonal for a diagonal
    2x2 matrix with entries >= 0 in two dimensions *)
Definition weights (dim : nat) (M : aniso) (w : nat -> R) : Prop :=
  match M with
  | NoM => forall c, (c < dim)%nat -> w c = 1
  | Scalar m => dim = 1%nat /\ 0 <= m /\ w 0%nat = m
  | Tensor T => dim = 2%nat /\ a_r T = 2%nat /\ a_c T = 2%nat /\
      a_m T 0%nat 1%nat = 0 /\ a_m T 1%nat 0%nat = 0 /\
      0 <= w 0%nat /\ 0 <= w 1%nat /\ a_m T 0%nat 0%nat = w 0%nat /\ a_m T 1%nat 1%nat = w 1%nat
  end.

(** Weighted Euclidean distance of two points *)
Definition euclid (dim : nat) (w p q : nat -> R) : R := sqrt (sum dim (fun c => w c * (p c - q c) ^ 2)).
(** |p-q|_T = sqrt((p-q)'T(p-q)) *)
Definition tensor_norm (T : mat) (v : nat -> R) : R := sqrt (qf 2 T v).

(** Length of the shorter arc between two points of a circle of circumference w, given by
    their positions p, q along it *)
Definition arc (w p q : R) : R := Rmin (Rabs (p - q)) (w - Rabs (p - q)).

(** The points, rows of x *)
Definition point (x : arr) (i : nat) : nat -> R := a_m x i.
Definition planar (x : arr) : Prop := a_c x = 1%nat \/ a_c x = 2%nat.
(** every point lies in the interval [lo, hi] *)
Definition in_box1 (lo hi : R) (x : arr) : Prop :=
  a_c x = 1%nat /\ forall i, (i < a_r x)%nat -> lo <= point x i 0%nat <= hi.
Definition in_box2 (x0 x1 y0 y1 : R) (x : arr) : Prop :=
  a_c x = 2%nat /\ forall i, (i < a_r x)%nat ->
    x0 <= point x i 0%nat <= x1 /\ y0 <= point x i 1%nat <= y1.

(** A covariance matrix: symmetric and positive semidefinite *)
Definition covariance_matrix (n : nat) (K : mat) : Prop := symmetric n K /\ semidefinite n K.
(** The kernel k, evaluated at all pairs of the points x, gives the matrix f *)
Definition gives (k : arr -> arr -> res arr) (x : arr) (f : nat -> nat -> R) : Prop :=
  exists K, kernel_matrix k x = Ok K /\
    forall i j, (i < a_r x)%nat -> (j < a_r x)%nat -> K i j = f i j.
(** ... which is a covariance matrix *)
Definition valid_kernel (k : arr -> arr -> res arr) (x : arr) : Prop :=
  exists K, kernel_matrix k x = Ok K /\ covariance_matrix (a_r x) K.
(** the box given to the function contains the points, if it is used *)
Definition in_domain (periodic : bool) (box : option (list R)) (x : arr) : Prop :=
  if periodic then
    match box with
    | Some [a; b] => in_box1 a b x
    | Some [a; b; c; d] => in_box2 a b c d x
    | _ => False
    end
  else True.

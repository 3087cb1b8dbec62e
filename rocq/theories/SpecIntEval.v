(** * Specification for the local matrices of integral operators *)
From Coq Require Import List Arith Reals.
From Verif Require Import Tree Quadrature SpecQuadrature IntEval.
Import ListNotations.
Open Scope R_scope.

(** the value at a node of the combination of the shape functions with coefficients v *)
Definition value_at {X} (m : nat) (v : nat -> R) (p : qnode X) : R := rsum (map (fun i => v i * nth i (q_phi p) 0) (seq 0 m)).
(** the double quadrature sum for the integral of u(x) K(x, y) v(y) *)
Definition double_sum {X} (K : X -> X -> R) (u v : qnode X -> R) (P Q : list (qnode X)) : R :=
  rsum (map (fun p => rsum (map (fun q => q_w p * u p * K (q_x p) (q_x q) * (q_w q * v q)) Q)) P).
(** a positive semidefinite kernel: sums over any points and coefficients are nonnegative *)
Definition kernel_semidefinite {X} (K : X -> X -> R) : Prop :=
  forall l : list (X * R), 0 <= rsum (map (fun p => rsum (map (fun q => snd p * K (fst p) (fst q) * snd q) l)) l).
(** the nodes of a one dimensional rule with the values of some functions *)
Definition nodes_of (phi : list (R -> R)) (l : rule1) : list (qnode R) :=
  map (fun p => mkQ (fst p) (snd p) (map (fun f => f (fst p)) phi)) l.

(** * Specification for quadrature: integrals by antiderivatives, polynomials *)
From Coq Require Import List Reals.
From Verif Require Import Quadrature.
Import ListNotations.
Open Scope R_scope.

Definition antiderivative (P f : R -> R) : Prop := forall x, derivable_pt_lim P x (f x).
(** I is the integral of f from a to b *)
Definition integral (f : R -> R) (a b I : R) : Prop := exists P, antiderivative P f /\ I = P b - P a.
(** I is the integral of f over [a, b] x [c, d] *)
Definition integral2 (f : R -> R -> R) (a b c d I : R) : Prop :=
  exists G, (forall y, integral (fun x => f x y) a b (G y)) /\ integral G c d I.

(** Polynomials with exponents below n (in each variable; in total) *)
Definition poly (n : nat) (f : R -> R) : Prop :=
  exists c : list (R * nat), Forall (fun t => (snd t < n)%nat) c /\ forall x, f x = rsum (map (fun t => fst t * x ^ snd t) c).
Definition poly2 (n m : nat) (f : R -> R -> R) : Prop :=
  exists c : list (R * nat * nat), Forall (fun t => (snd (fst t) < n)%nat /\ (snd t < m)%nat) c /\
    forall x y, f x y = rsum (map (fun t => fst (fst t) * x ^ snd (fst t) * y ^ snd t) c).
Definition poly_total (n : nat) (f : R -> R -> R) : Prop :=
  exists c : list (R * nat * nat), Forall (fun t => (snd (fst t) + snd t < n)%nat) c /\
    forall x y, f x y = rsum (map (fun t => fst (fst t) * x ^ snd (fst t) * y ^ snd t) c).

(** What a rule returns for a function *)
Definition quadrature1 (l : rule1) (f : R -> R) : R := rsum (map (fun p => snd p * f (fst p)) l).
Definition quadrature2 (l : rule2) (f : R -> R -> R) : R := rsum (map (fun p => snd p * f (fst (fst p)) (snd (fst p))) l).

(** Quadrilaterals, listed counterclockwise from the first corner *)
Definition cross (a b c : R * R) : R := (fst b - fst a) * (snd c - snd a) - (fst c - fst a) * (snd b - snd a).
Definition strictly_convex (q : quadr) : Prop :=
  let '(sw, se, ne, nw) := q in 0 < cross sw se ne /\ 0 < cross se ne nw /\ 0 < cross ne nw sw /\ 0 < cross nw sw se.
Definition area (q : quadr) : R :=
  let '(sw, se, ne, nw) := q in (cross sw se ne + cross sw ne nw) / 2.
Definition rectangle (a b c d : R) : quadr := ((a, c), (b, c), (b, d), (a, d)).
Definition edge (q : quadr) (i : nat) : (R * R) * (R * R) :=
  let '(sw, se, ne, nw) := q in
  match i with 0%nat => (sw, se) | 1%nat => (se, ne) | 2%nat => (ne, nw) | _ => (nw, sw) end.
Definition distance (p q : R * R) : R := sqrt ((fst q - fst p) ^ 2 + (snd q - snd p) ^ 2).
(** The line integral of F dy along the edge from p to r *)
Definition edge_integral (F : R -> R -> R) (p r : R * R) (I : R) : Prop :=
  integral (fun u => F (fst p + (fst r - fst p) * u) (snd p + (snd r - snd p) * u) * (snd r - snd p)) 0 1 I.
(** the image of a point of the unit square in a quadrilateral *)
Definition image_x (q : quadr) (s t : R) : R := fst (quad_map q s t).
Definition image_y (q : quadr) (s t : R) : R := snd (quad_map q s t).
(** a point in convex position: on the left of (or on) all four edges *)
Definition inside (q : quadr) (p : R * R) : Prop :=
  let '(sw, se, ne, nw) := q in 0 <= cross sw se p /\ 0 <= cross se ne p /\ 0 <= cross ne nw p /\ 0 <= cross nw sw p.

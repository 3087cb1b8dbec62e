(** * Vocabulary of the geometric statements: plain analytic geometry over Q,
    independent of the algorithms in Geom.v. *)
From Coq Require Import List Arith Bool QArith.
Import ListNotations.
From Verif Require Import Tree Forest Geom.
Open Scope Q_scope.

(** the intervals of [l], in this order, have positive width and cover [a,b]
    without gaps or overlaps *)
Fixpoint tiles (a b : Q) (l : list itv) : Prop :=
  match l with
  | [] => a == b
  | d :: r => fst d == a /\ fst d < snd d /\ tiles (snd d) b r
  end.

(** equality of points *)
Definition peq (p q : pt) : Prop := fst p == fst q /\ snd p == snd q.
(** twice the signed area of the triangle a, b, c: positive iff c is to the
    left of the line from a to b *)
Definition orient (a b c : pt) : Q :=
  (fst b - fst a) * (snd c - snd a) - (snd b - snd a) * (fst c - fst a).
(** strictly convex quadrilateral with counter-clockwise vertices *)
Definition convex (q : quad) : Prop :=
  let '(a, b, c, d) := q in
  0 < orient a b c /\ 0 < orient b c d /\ 0 < orient c d a /\ 0 < orient d a b.
(** [p] lies in the closed convex quadrilateral *)
Definition in_quad (q : quad) (p : pt) : Prop :=
  let '(a, b, c, d) := q in
  0 <= orient a b p /\ 0 <= orient b c p /\ 0 <= orient c d p /\ 0 <= orient d a p.
(** [p] lies in its interior *)
Definition in_int (q : quad) (p : pt) : Prop :=
  let '(a, b, c, d) := q in
  0 < orient a b p /\ 0 < orient b c p /\ 0 < orient c d p /\ 0 < orient d a p.
(** axis-aligned rectangle whose vertices start at the south-west corner *)
Definition aligned (q : quad) : Prop :=
  let '(a, b, c, d) := q in
  fst a == fst d /\ fst b == fst c /\ snd a == snd b /\ snd c == snd d /\
  fst a < fst b /\ snd a < snd d.
Definition parallelogram (q : quad) : Prop :=
  let '(a, b, c, d) := q in
  fst a + fst c == fst b + fst d /\ snd a + snd c == snd b + snd d.
Definition in_unit (p : pt) : Prop := 0 <= fst p <= 1 /\ 0 <= snd p <= 1.
(** sums *)
Fixpoint sumQ (l : list Q) : Q := match l with [] => 0 | x :: r => x + sumQ r end.

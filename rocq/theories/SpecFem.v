(** * Vocabulary of the statements about finite elements: derivatives in the
    usual epsilon-delta sense, over the rationals *)
From Coq Require Import List Arith Bool QArith Qabs.
From Verif Require Import Tree Geom SpecGeom.
Import ListNotations.
Open Scope Q_scope.

(** [d] is the derivative of [f] at [x] *)
Definition deriv_at (f : Q -> Q) (x d : Q) : Prop :=
  forall eps, 0 < eps -> exists delta, 0 < delta /\
    forall h, Qabs h <= delta -> Qabs (f (x + h) - f x - d * h) <= eps * Qabs h.
(** [d0], [d1] are the partial derivatives of [f] at [(x, y)] *)
Definition partial_at (f : pt -> Q) (p : pt) (d0 d1 : Q) : Prop :=
  deriv_at (fun x => f (x, snd p)) (fst p) d0 /\ deriv_at (fun y => f (fst p, y)) (snd p) d1.
(** [(gx, gy)] is the gradient, in the coordinates of the cell [q], of a function
    on [q] that is given in reference coordinates: [f (s, t)] is its value at the
    point [qmap q s t] of the cell *)
Definition cell_gradient (q : quad) (f : pt -> res Q) (p : pt) (gx gy : Q) : Prop :=
  exists v, f p = Ok v /\
  forall eps, 0 < eps -> exists delta, 0 < delta /\
    forall p', in_unit p' -> Qabs (fst p' - fst p) <= delta -> Qabs (snd p' - snd p) <= delta ->
      exists v', f p' = Ok v' /\
        let dx := fst (qmap q (fst p') (snd p')) - fst (qmap q (fst p) (snd p)) in
        let dy := snd (qmap q (fst p') (snd p')) - snd (qmap q (fst p) (snd p)) in
        Qabs (v' - v - gx * dx - gy * dy) <= eps * (Qabs dx + Qabs dy).
(** the same on an interval *)
Definition interval_derivative (d : itv) (f : Q -> res Q) (x g : Q) : Prop :=
  exists v, f x = Ok v /\
  forall eps, 0 < eps -> exists delta, 0 < delta /\
    forall x', 0 <= x' <= 1 -> Qabs (x' - x) <= delta ->
      exists v', f x' = Ok v' /\
        let dx := imap d x' - imap d x in Qabs (v' - v - g * dx) <= eps * Qabs dx.

(** a polynomial by its coefficients, lowest first *)
Fixpoint poly (c : list Q) (x : Q) : Q := match c with [] => 0 | a :: r => a + x * poly r x end.
(** a polynomial in two variables: the coefficients of the powers of [x] are
    polynomials in [y] *)
Definition poly2 (c : list (list Q)) (p : pt) : Q := poly (map (fun r => poly r (snd p)) c) (fst p).
(** sums of the results of computations that do not raise *)
Definition sums_to (n : nat) (f : nat -> res Q) (s : Q) : Prop :=
  exists l, length l = n /\ (forall i v, nth_error l i = Some v -> f i = Ok v) /\ sumQ l == s.

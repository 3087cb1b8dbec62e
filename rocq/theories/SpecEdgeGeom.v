(** * Specification for half-edge geometry *)
From Coq Require Import List QArith Qabs.
From Verif Require Import Tree Forest Geom SpecGeom EdgeGeom.
Import ListNotations.
Open Scope Q_scope.

(** p is the point of the segment with parameter t *)
Definition at_param (h : edge) (t : Q) (p : pt) : Prop :=
  fst p == fst (fst h) + t * (fst (snd h) - fst (fst h)) /\ snd p == snd (fst h) + t * (snd (snd h) - snd (fst h)).
Definition on_segment (h : edge) (p : pt) : Prop := exists t, 0 <= t <= 1 /\ at_param h t p.
Definition meet (h l : edge) : Prop := exists p, on_segment h p /\ on_segment l p.
Definition proper (h : edge) : Prop := ~ peq (fst h) (snd h).
(** p is near the segment: both coordinates differ by at most d from those of a point of it *)
Definition near_segment (d : Q) (h : edge) (p : pt) : Prop :=
  exists t, 0 <= t <= 1 /\ Qabs (fst p - (fst (fst h) + t * (fst (snd h) - fst (fst h)))) <= d /\
                           Qabs (snd p - (snd (fst h) + t * (snd (snd h) - snd (fst h)))) <= d.
(** the data are not in the gap of the tolerance: cross products that are tiny are zero *)
Definition clear_cut (h l : edge) : Prop :=
  let gap c := c == 0 \/ tol14 <= Qabs c in
  gap (orient (fst h) (snd h) (snd l) - orient (fst h) (snd h) (fst l)) /\ gap (orient (fst h) (snd h) (fst l)).

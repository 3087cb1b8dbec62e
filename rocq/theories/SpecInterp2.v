(** * Vocabulary for the statements about interpolation on quadrilateral meshes (C90) *)
From Coq Require Import List Arith QArith.
From Verif Require Import Geom SpecGeom Fem SpecFem.
Import ListNotations.
Open Scope Q_scope.

(** the polynomial with the coefficients [c] (row i: of x^i) has the degree [n] at most, in total *)
Definition total_degree (n : nat) (c : list (list Q)) : Prop :=
  forall i r, nth_error c i = Some r -> r = [] \/ (length r + i <= S n)%nat.
(** ... in each of its variables *)
Definition degree_each (n : nat) (c : list (list Q)) : Prop := (length c <= S n)%nat /\ Forall (fun r => (length r <= S n)%nat) c.
(** [F] are the function [f] of the plane and its derivatives *)
Definition derivatives_of (f : pt -> Q) (F : deriv -> pt -> Q) : Prop :=
  (forall z, F V0 z == f z) /\
  (forall z, partial_at (F V0) z (F (V1 0) z) (F (V1 1) z)) /\
  forall i z, (i < 2)%nat -> partial_at (F (V1 i)) z (F (V2 i 0) z) (F (V2 i 1) z).
(** the cells of the initial mesh are rectangles with sides parallel to the axes *)
Definition aligned_faces (pts : list pt) (faces : list (list nat)) : Prop :=
  forall fc, In fc faces -> let v k := nth (nth k fc 0%nat) pts (0, 0) in aligned (v 0%nat, v 1%nat, v 2%nat, v 3%nat).

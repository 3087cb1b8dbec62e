(** * Vocabulary for the statements about hanging nodes (C51, C52) *)
From Coq Require Import List Arith Bool QArith.
From Verif Require Import Tree Forest SpecForest Geom SpecGeom Quad SpecQuad Fem SpecFem Dof SpecDof Dof2 SpecDof2 Hang.
Import ListNotations.
Open Scope nat_scope.

(** the value [v], at the point [x] of the unit square of the cell [p], of the
    finite element function with the coefficients [u] (by dof): the sum of
    u(dof of slot k) * phi_k(x) over the slots [k] *)
Definition value_at (e : elem) (s : dofs) (u : nat -> Q) (p : path) (x : pt) (v : Q) : Prop :=
  exists ds, gd s p = Some (map Some ds) /\ length ds = n_dofs D2 e /\
    sums_to (n_dofs D2 e) (fun k => bind (phi2 e k x) (fun f => Ok (u (nth k ds 0%nat) * f)%Q)) v.
(** the function has one value at every point of the surface, whatever leaf of
    the submesh the point is looked at in *)
Definition continuous (adj : nat -> nat -> nat -> nat -> Prop) (f : forest (list nat)) (sf : option flag) (e : elem) (s : dofs) (u : nat -> Q) : Prop :=
  forall p q x y v w, sub_leaf f sf p -> sub_leaf f sf q -> unit_pt x -> unit_pt y -> glued adj (place p x) (place q y) ->
    value_at e s u p x v -> value_at e s u q y w -> (v == w)%Q.
(** [u] satisfies the constraints: u(d) is the sum of coefficient * u(supporting dof) *)
Definition satisfies (u : nat -> Q) (H : hdict) : Prop :=
  forall d sup cs, In (d, (sup, cs)) H -> (u d == sumQ (map (fun ac => snd ac * u (fst ac)) (combine sup cs)))%Q.
(** the dof [d] is at a point of the surface where a leaf of the submesh has no
    node, but another has *)
Definition hangs (adj : nat -> nat -> nat -> nat -> Prop) (f : forest (list nat)) (sf : option flag) (e : elem) (s : dofs) (d : nat) : Prop :=
  exists p x q k b, sub_leaf f sf p /\ sub_leaf f sf q /\ unit_pt x /\ dof_at s q k d /\ node_at e q k b /\ glued adj (place p x) b /\
    forall j y, nth_error (reference_nodes2 e) j = Some y -> ~ peq x y.
(** the constraints as the assembler reads them (C43, C44) *)
Definition as_pairs (H : hdict) : list (nat * list (nat * Q)) := map (fun c => (fst c, combine (fst (snd c)) (snd (snd c)))) H.

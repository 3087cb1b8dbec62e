(** * Vocabulary for the statements about the solution of a boundary value problem in 2D (C91) *)
From Coq Require Import List Arith QArith.
From Verif Require Import Tree Forest SpecForest Geom SpecGeom Quad SpecQuad Fem SpecFem Dof Dof2 SpecDof SpecHang Assemble SpecAssemble Problem2 SpecProblem2 Region SpecRegion DofVert2 SpecDofVert2 Basis SpecDof2.
Import ListNotations.
Open Scope Q_scope.

(** the weights of the rules are positive *)
Definition positive_rules (crule : list pt * list Q) (erule : list Q * list Q) : Prop :=
  (forall w, In w (snd crule) -> 0 < w) /\ forall w, In w (snd erule) -> 0 < w.
(** a polynomial of degree less than m in each variable that vanishes at all nodes is zero *)
Definition resolves2 (crule : list pt * list Q) (m : nat) : Prop :=
  forall c, (length c <= m)%nat -> Forall (fun r => (length r <= m)%nat) c -> (forall x, In x (fst crule) -> poly2 c x == 0) -> forall z, poly2 c z == 0.
(** the bilinear terms are k v u, k v_x u_x, k v_y u_y, ... with kernels k that are not negative *)
Definition nonneg_terms (m : mesh2) (sf : option flag) (bases : list deriv) (terms : list term2) : Prop :=
  forall t i j, In t terms -> f2_test (fst t) = Some i -> f2_trial (fst t) = Some j ->
    der_of2 bases i = der_of2 bases j /\ forall p x, sub_leaf (cells m) sf p -> in_unit x -> 0 <= snd t p x.
(** one of the terms is the integral of k (D v) (D u) over all cells, D the derivative [der], k > 0 *)
Definition positive_term (m : mesh2) (sf : option flag) (bases : list deriv) (terms : list term2) (der : deriv) : Prop :=
  exists t i, In t terms /\ f2_test (fst t) = Some i /\ f2_trial (fst t) = Some i /\ der_of2 bases i = der /\ f2_dmu (fst t) = Dx2 /\ f2_flag (fst t) = None /\
    forall p x, sub_leaf (cells m) sf p -> in_unit x -> 0 < snd t p x.
(** a vertex of the boundary at which a condition is prescribed, a corner of the leaf [p] *)
Definition boundary_vertex (M : rmesh) (sf marker : option flag) (v : nat) (p : path) (i : nat) : Prop :=
  found_in M sf true (Vtx v) p /\ (forall g, marker = Some g -> labelled M (Vtx v) g) /\ exists h, is_side (rm M) p i h /\ v = hbase (he (hp (rm M)) h).
(** the problem's weak form holds for the polynomial with the derivatives [F]: for every term
    k (D v) (D' u) there is a term k (D' f) (D v), on the same region, in the right hand side *)
Definition right_hand_side (m : mesh2) (sf : option flag) (bases : list deriv) (F : deriv -> pt -> Q) (t r : term2) : Prop :=
  exists i j, f2_test (fst t) = Some i /\ f2_trial (fst t) = Some j /\ f2_test (fst r) = Some i /\ f2_trial (fst r) = None /\
    f2_dmu (fst r) = f2_dmu (fst t) /\ f2_flag (fst r) = f2_flag (fst t) /\
    forall p q x, sub_leaf (cells m) sf p -> shape_is m p q -> in_unit x -> snd r p x == snd t p x * F (der_of2 bases j) (qmap q (fst x) (snd x)).

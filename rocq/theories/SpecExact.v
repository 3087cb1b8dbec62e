(** * Specification for elliptic problems on one-dimensional meshes *)
From Coq Require Import List Arith Bool QArith.
From Verif Require Import Tree Forest SpecForest Geom Fem SpecFem Dof Basis Solver SpecSolver Nodal Nodal1 SpecNodal Region1 Assemble SpecAssemble Kernel Dirichlet1 SpecProblem.
Import ListNotations.
Open Scope Q_scope.

Definition positive_weights (rule : list Q * list Q) : Prop := forall w, In w (snd rule) -> 0 < w.
(** a polynomial of degree less than m that vanishes at all nodes is zero *)
Definition resolves (rule : list Q * list Q) (m : nat) : Prop :=
  forall c, (length c <= m)%nat -> (forall r, In r (fst rule) -> poly c r == 0) -> forall x, poly c x == 0.
(** the rule integrates 1, x, .., x^m exactly over the unit interval *)
Definition exact_to (rule : list Q * list Q) (m : nat) : Prop :=
  forall k, (k <= m)%nat -> total (fun xw => snd xw * fst xw ^ Z.of_nat k) (combine (fst rule) (snd rule)) == 1 / inject_Z (Z.of_nat (S k)).
(** diffusion everywhere; the other bilinear terms are not negative (reaction, Robin conditions) *)
Definition elliptic (f : forest itv) (sf : option flag) (bases : list deriv) (terms : list term) : Prop :=
  (exists t i k, In t terms /\ fm_test (fst t) = Some i /\ fm_trial (fst t) = Some i /\ der_of bases i = V1 k /\ fm_dmu (fst t) = Dx /\ fm_flag (fst t) = None /\
     forall p x, leaf_around f sf x p -> 0 < snd t p x) /\
  forall t i j, In t terms -> fm_test (fst t) = Some i -> fm_trial (fst t) = Some j -> der_of bases i = der_of bases j /\ forall p x, leaf_around f sf x p -> 0 <= snd t p x.
(** W has the prescribed values at the marked ends and satisfies the equation for all functions
    that vanish there *)
Definition weak_solution (a b : Q) (e : elem) (f : forest itv) (sf : option flag) (s : dofs) (lab : Q -> flag -> bool) (marker : option flag) (df : dir_data)
    (rule : list Q * list Q) (bases : list deriv) (terms : list term) (ps : list path) (W : deriv -> path -> Q -> Q) : Prop :=
  (forall p x, leaf_around f sf x p -> marked_end a b lab marker x -> prescribed df x (W V0 p x)) /\
  (forall v V, represents e f sf s v V -> (forall p x, leaf_around f sf x p -> marked_end a b lab marker x -> V V0 p x == 0) ->
     bilinear_value (mkM1 f false lab) rule bases terms ps V W == linear_value (mkM1 f false lab) rule bases terms ps V).
(** the solver returns a value for every nonsingular system *)
Definition nonsingular (n : nat) (A : mat) : Prop := forall x, (forall i, (i < n)%nat -> mulv n A x i == 0) -> forall i, (i < n)%nat -> x i == 0.
Definition complete_spsolve (solver : mat -> nat -> mat -> option mat) : Prop :=
  forall n A b, shape n n A = true -> shape n 1 b = true -> nonsingular n A -> solver A 1%nat b <> None.
(** the problem - kappa u'' = g for the polynomial u with the coefficients c: a diffusion term and a
    load; at an end that is not marked u' = 0 *)
Definition poisson (f : forest itv) (sf : option flag) (bases : list deriv) (kappa : Q) (c : list Q) (terms : list term) : Prop :=
  exists ta tl i j k, terms = [ta; tl] /\
    fm_test (fst ta) = Some i /\ fm_trial (fst ta) = Some i /\ der_of bases i = V1 k /\ fm_dmu (fst ta) = Dx /\ fm_flag (fst ta) = None /\
    (forall p x, leaf_around f sf x p -> snd ta p x == kappa) /\
    fm_test (fst tl) = Some j /\ fm_trial (fst tl) = None /\ der_of bases j = V0 /\ fm_dmu (fst tl) = Dx /\ fm_flag (fst tl) = None /\
    (forall p x y, leaf_around f sf x p -> poly_value (V2 0 0) c x y -> snd tl p x == - (kappa * y)).
Definition matching (a b : Q) (lab : Q -> flag -> bool) (marker : option flag) (df : dir_data) (c : list Q) : Prop :=
  forall x, x == a \/ x == b -> (marked_end a b lab marker x /\ prescribed df x (poly c x)) \/ (~ marked_end a b lab marker x /\ poly_value (V1 0) c x 0).

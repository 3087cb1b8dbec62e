(** * Specification for problems on one-dimensional meshes: finite element functions and the
    forms as sums over the quadrature points of the mesh *)
From Coq Require Import List Arith Bool QArith.
From Verif Require Import Tree Forest SpecForest Geom Fem Dof SpecDof Basis Nodal Nodal1 SpecNodal Region1 SpecRegion1 Assemble SpecAssemble Kernel SpecKernel Dirichlet1 Prop_Kernel.
Import ListNotations.
Open Scope Q_scope.

(** [V der p x] is the value at x, in the leaf p, of the function with the nodal values v, or of
    its derivative *)
Definition represents (e : elem) (f : forest itv) (sf : option flag) (s : dofs) (v : nat -> Q) (V : deriv -> path -> Q -> Q) : Prop :=
  forall der p x, leaf_around f sf x p -> value_in e f s v der p x (V der p x).
(** the integral of h over the cell p, or over its vertices, in the region with the label *)
Definition has (fl : option flag) (lab : flag -> bool) : bool := match fl with None => true | Some g => lab g end.
Definition integral (M : mesh1) (rule : list Q * list Q) (mu : measure) (fl : option flag) (p : path) (h : Q -> Q) : Q :=
  match fget (m1_cells M) p with
  | None => 0
  | Some n =>
    let (l, r) := n_data n in
    match mu with
    | Dx => if has fl (marked_at (m1_cells M) p)
            then total (fun xw => snd xw * (r - l) * h (l + (r - l) * fst xw)) (combine (fst rule) (snd rule)) else 0
    | Ds => 0
    | Dv => (if has fl (m1_lab M (Qred l)) then h l else 0) + (if has fl (m1_lab M (Qred r)) then h r else 0)
    end
  end.
(** a rule on the unit interval *)
Definition rule_ok (rule : list Q * list Q) : Prop :=
  length (fst rule) = length (snd rule) /\ forall r, In r (fst rule) -> 0 <= r <= 1.

(** The kernel is the function kf: in every region of a leaf its value is kf at the points *)
Definition region_at (e : elem) (M : mesh1) (sf : option flag) (s : dofs) (bases : list deriv) (p : path) (r : region Q) : Prop :=
  exists n ds refs, fget (m1_cells M) p = Some n /\ is_leaf_of sf n /\ cell_dofs1 s p = Some ds /\ (forall x, In x refs -> 0 <= x <= 1) /\
    r_x r = map (imap (n_data n)) refs /\ shape_tables e bases (n_data n) refs = Ok (r_phi r) /\ r_dofs r = map (fun i => (i, ds)) (seq 0 (length bases)).
Definition kernel_is (e : elem) (M : mesh1) (sf : option flag) (s : dofs) (bases : list deriv) (k : kernel Q deriv) (kf : path -> Q -> Q) : Prop :=
  (exists fs, made fs k) /\ k_n k = 1%nat /\ (forall p x y, x == y -> kf p x == kf p y) /\
  forall p r, region_at e M sf s bases p r -> exists V, kernel_eval k (r_x r) (Some (r_phi r)) (Some (r_dofs r)) = Ok V /\
    forall g, (g < length (r_x r))%nat -> nth 0 (nth g V []) 0 == kf p (nth g (r_x r) 0).

(** one function of a kernel *)
Definition map_is (e : elem) (M : mesh1) (sf : option flag) (s : dofs) (bases : list deriv) (m : kmap Q deriv) (h : path -> Q -> Q) : Prop :=
  keeps m /\ map_samples m = 1%nat /\ (forall p x y, x == y -> h p x == h p y) /\
  forall p r d, region_at e M sf s bases p r -> exists v, map_eval m d (r_x r) (Some (r_phi r)) (Some (r_dofs r)) = Ok v /\
    forall g, (g < length (r_x r))%nat -> sample_at v g 0 == h p (nth g (r_x r) 0).

(** A problem: forms with the functions that their kernels are *)
Notation term := (form1 * (path -> Q -> Q))%type.
Definition form_dim (fm : form1) : nat := match fm_test fm, fm_trial fm with None, _ => 0 | Some _, None => 1 | Some _, Some _ => 2 end.
Definition term_ok (e : elem) (M : mesh1) (sf : option flag) (s : dofs) (bases : list deriv) (t : term) : Prop :=
  kernel_is e M sf s bases (fm_kernel (fst t)) (snd t) /\ fm_dmu (fst t) <> Ds /\
  (forall i, fm_test (fst t) = Some i -> (i < length bases)%nat) /\ (forall i, fm_trial (fst t) = Some i -> (i < length bases)%nat).
Section Values.
Context (M : mesh1) (rule : list Q * list Q) (bases : list deriv) (terms : list term) (ps : list path).
Definition der_of (i : nat) : deriv := nth i bases V0.
(** the bilinear form of the problem, at the functions V (test) and U (trial) *)
Definition bilinear_value (V U : deriv -> path -> Q -> Q) : Q :=
  total (fun p => total (fun t : term => match fm_test (fst t), fm_trial (fst t) with
    | Some i, Some j => integral M rule (fm_dmu (fst t)) (fm_flag (fst t)) p (fun x => snd t p x * V (der_of i) p x * U (der_of j) p x)
    | _, _ => 0 end) terms) ps.
Definition linear_value (V : deriv -> path -> Q -> Q) : Q :=
  total (fun p => total (fun t : term => match fm_test (fst t), fm_trial (fst t) with
    | Some i, None => integral M rule (fm_dmu (fst t)) (fm_flag (fst t)) p (fun x => snd t p x * V (der_of i) p x)
    | _, _ => 0 end) terms) ps.
Definition constant_value : Q :=
  total (fun p => total (fun t : term => match fm_test (fst t) with
    | None => integral M rule (fm_dmu (fst t)) (fm_flag (fst t)) p (fun x => snd t p x)
    | _ => 0 end) terms) ps.
End Values.
(** what a Dirichlet condition prescribes at the point x *)
Definition prescribed (df : dir_data) (x y : Q) : Prop :=
  match df with DConst c => y == c | DMap g => y == g x | DSame => False end.

(** the dof d sits at the vertex z of the mesh, at an end of the domain if the conditions are
    on the boundary, and the vertex carries the marker *)
Definition conditioned (a b : Q) (e : elem) (f : forest itv) (sf : option flag) (s : dofs) (lab : Q -> flag -> bool) (marker : option flag) (on_bnd : bool) (d : nat) (z : Q) : Prop :=
  exists p k, sub_leaf f sf p /\ dof_at s p k d /\ position1 e f p k z /\ end_of f p z /\ (on_bnd = true -> z == a \/ z == b) /\
    forall g, marker = Some g -> lab (Qred z) g = true.
Definition proper_data (df : dir_data) : Prop := match df with DMap g => forall x y, x == y -> g x == g y | _ => True end.
(** the marked ends of the interval *)
Definition marked_end (a b : Q) (lab : Q -> flag -> bool) (marker : option flag) (x : Q) : Prop :=
  (x == a \/ x == b) /\ forall g, marker = Some g -> lab (Qred x) g = true.

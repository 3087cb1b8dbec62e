(** * Specification for problems on quadrilateral meshes: finite element functions and the forms
    as sums over the quadrature points of the mesh *)
From Coq Require Import List Arith Bool QArith.
From Verif Require Import Tree Forest SpecForest Geom SpecGeom Quad SpecQuad Fem SpecFem Dof SpecDof Dof2 SpecDof2 SpecHang Basis Nodal Nodal1 Region Assemble SpecAssemble Kernel SpecKernel Problem2 Prop_Kernel.
Import ListNotations.
Open Scope Q_scope.

(** [q] is the quadrilateral of the cell [p] *)
Definition shape_is (m : mesh2) (p : path) (q : quad) : Prop :=
  exists c v0 v1 v2 v3, fget (cells m) p = Some c /\ coords m c = [v0; v1; v2; v3] /\ q = (v0, v1, v2, v3).
(** [V der p x] is the value, at the point with the reference coordinates x of the leaf p, of the
    finite element function with the coefficients v or of its derivative in the plane *)
Definition represents2 (e : elem) (m : mesh2) (sf : option flag) (s : dofs) (v : nat -> Q) (V : deriv -> path -> pt -> Q) : Prop :=
  forall p q x, sub_leaf (cells m) sf p -> shape_is m p q -> in_unit x ->
    value_at e s v p x (V V0 p x) /\
    cell_gradient q (fun y => Ok (V V0 p y)) x (V (V1 0) p x) (V (V1 1) p x) /\
    forall i, (i < 2)%nat -> cell_gradient q (fun y => Ok (V (V1 i) p y)) x (V (V2 i 0) p x) (V (V2 i 1) p x).
Definition derivative_ok (der : deriv) : Prop := match der with V0 => True | V1 i => (i < 2)%nat | V2 i j => (i < 2)%nat /\ (j < 2)%nat end.

(** the integral of h (a function of the reference coordinates) over the cell p, its sides or its
    vertices that carry the label *)
Definition has2 (fl : option flag) (lab : flag -> bool) : bool := match fl with None => true | Some g => lab g end.
Section Integral.
Context (M : rmesh) (crule : list pt * list Q) (erule : list Q * list Q) (norm : pt -> Q).
Definition over_square (q : quad) (h : pt -> Q) : Q :=
  total (fun xw => snd xw * qdet (qjac q (fst (fst xw)) (snd (fst xw))) * h (fst xw)) (combine (fst crule) (snd crule)).
Definition over_side (a b : pt) (k : nat) (h : pt -> Q) : Q :=
  total (fun rw => snd rw * norm (fst b - fst a, snd b - snd a) * h (side_pt k (fst rw))) (combine (fst erule) (snd erule)).
Definition integral2 (mu : measure2) (fl : option flag) (p : path) (h : pt -> Q) : Q :=
  match fget (cells (rm M)) p with
  | None => 0
  | Some c =>
    match coords (rm M) c with
    | [a; b; c'; d] =>
      let at_ (l : list nat) k := nth k l 0%nat in
      let vs := cell_vertices (hp (rm M)) (n_data c) in
      match mu with
      | Dx2 => if has2 fl (marked_at (cells (rm M)) p) then over_square (a, b, c', d) h else 0
      | Ds2 => total (fun k => if has2 fl (hlab M (at_ (n_data c) k)) then over_side (nth k [a; b; c'; d] a) (nth ((k + 1) mod 4) [a; b; c'; d] a) k h else 0) [0; 1; 2; 3]%nat
      | Dv2 => total (fun k => if has2 fl (vlab M (at_ vs k)) then h (corner k) else 0) [0; 1; 2; 3]%nat
      end
    | _ => 0
    end
  end.
End Integral.
(** rules on the unit square and on the unit interval *)
Definition rules_ok (crule : list pt * list Q) (erule : list Q * list Q) : Prop :=
  (length (fst crule) = length (snd crule) /\ forall x, In x (fst crule) -> in_unit x) /\
  (length (fst erule) = length (snd erule) /\ forall r, In r (fst erule) -> 0 <= r <= 1).

(** the mesh: any history of refinements of a mesh of convex quadrilaterals; those that the code
    takes for rectangles are axis-parallel rectangles that start at the lower left corner *)
Definition good_faces (pts : list pt) (faces : list (list nat)) : Prop :=
  forall fc, In fc faces -> forall q, q = (let v k := nth (nth k fc 0%nat) pts (0, 0) in (v 0%nat, v 1%nat, v 2%nat, v 3%nat)) ->
    convex q /\ (is_rectangle q = true -> aligned q).

(** The kernel is the function kf: in every region of a leaf its value is kf at the points *)
Definition region_at2 (e : elem) (M : rmesh) (sf : option flag) (s : dofs) (bases : list deriv) (p : path) (refs : list pt) (r : region pt) : Prop :=
  exists q ds, sub_leaf (cells (rm M)) sf p /\ shape_is (rm M) p q /\ cell_dofs1 s p = Some ds /\ (forall x, In x refs -> in_unit x) /\
    r_x r = map (fun x => qmap q (fst x) (snd x)) refs /\ shape_tables2 e M bases p refs = Ok (r_phi r) /\ r_dofs r = map (fun i => (i, ds)) (seq 0 (length bases)).
Definition kernel_is2 (e : elem) (M : rmesh) (sf : option flag) (s : dofs) (bases : list deriv) (k : kernel pt deriv) (kf : path -> pt -> Q) : Prop :=
  (exists fs, made fs k) /\ k_n k = 1%nat /\
  forall p refs r, region_at2 e M sf s bases p refs r -> exists V, kernel_eval k (r_x r) (Some (r_phi r)) (Some (r_dofs r)) = Ok V /\
    forall g, (g < length refs)%nat -> nth 0 (nth g V []) 0 == kf p (nth g refs (0, 0)).
(** one function of a kernel *)
Definition map_is2 (e : elem) (M : rmesh) (sf : option flag) (s : dofs) (bases : list deriv) (mp : kmap pt deriv) (h : path -> pt -> Q) : Prop :=
  keeps mp /\ map_samples mp = 1%nat /\
  forall p refs r d, region_at2 e M sf s bases p refs r -> exists v, map_eval mp d (r_x r) (Some (r_phi r)) (Some (r_dofs r)) = Ok v /\
    forall g, (g < length refs)%nat -> sample_at v g 0 == h p (nth g refs (0, 0)).
(** A problem: forms with the functions that their kernels are (of cell and reference point) *)
Notation term2 := (form2 * (path -> pt -> Q))%type.
Definition form_dim2 (fm : form2) : nat := match f2_test fm, f2_trial fm with None, _ => 0 | Some _, None => 1 | Some _, Some _ => 2 end.
Definition term_ok2 (e : elem) (M : rmesh) (sf : option flag) (s : dofs) (bases : list deriv) (t : term2) : Prop :=
  kernel_is2 e M sf s bases (f2_kernel (fst t)) (snd t) /\
  (forall i, f2_test (fst t) = Some i -> (i < length bases)%nat) /\ (forall i, f2_trial (fst t) = Some i -> (i < length bases)%nat).
Section Values.
Context (M : rmesh) (crule : list pt * list Q) (erule : list Q * list Q) (norm : pt -> Q) (bases : list deriv) (terms : list term2) (ps : list path).
Notation I t := (integral2 M crule erule norm (f2_dmu (fst t)) (f2_flag (fst t))).
Definition der_of2 (i : nat) : deriv := nth i bases V0.
Definition bilinear_value2 (V U : deriv -> path -> pt -> Q) : Q :=
  total (fun p => total (fun t : term2 => match f2_test (fst t), f2_trial (fst t) with
    | Some i, Some j => I t p (fun x => snd t p x * V (der_of2 i) p x * U (der_of2 j) p x)
    | _, _ => 0 end) terms) ps.
Definition linear_value2 (V : deriv -> path -> pt -> Q) : Q :=
  total (fun p => total (fun t : term2 => match f2_test (fst t), f2_trial (fst t) with
    | Some i, None => I t p (fun x => snd t p x * V (der_of2 i) p x)
    | _, _ => 0 end) terms) ps.
Definition constant_value2 : Q :=
  total (fun p => total (fun t : term2 => match f2_test (fst t) with
    | None => I t p (fun x => snd t p x)
    | _ => 0 end) terms) ps.
End Values.

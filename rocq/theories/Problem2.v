(** * Local forms of problems on quadrilateral meshes
    (src/assembler.py: the loop over the forms of a cell in Assembler.assemble 2340-2440,
    Assembler.shape_eval 3330-3536, Form.regions 1177-1219, Form.eval 1222-1410)

    Simplifications: deterministic kernels (one sample), all bases belong to one dof handler;
    the rules on the reference square and on the unit interval are arguments (exact rationals),
    and so is the Euclidean norm (np.linalg.norm); the shape functions of all bases are
    evaluated in every region (the code leaves out those that no form needs). *)
From Coq Require Import List Arith Bool QArith.
From Verif Require Import Tree Forest Geom Quad Fem Dof Dof2 Solver Basis Nodal Nodal1 Region Assemble Kernel.
Import ListNotations.
Open Scope Q_scope.

(** the vertices of a cell, as QuadCell.reference_map reads them, mesh.py 3928-3932 *)
Definition cell_quad (m : mesh2) (p : path) : quad :=
  let c := map (vx (hp m)) (vertices_of m p) in
  (nth 0 c (0, 0), nth 1 c (0, 0), nth 2 c (0, 0), nth 3 c (0, 0)).
(** QuadCell._is_rectangle, mesh.py 3637-3661: tested for the root cell, inherited by its
    descendants *)
Definition cell_is_rectangle (m : mesh2) (p : path) : bool := is_rectangle (cell_quad m (firstn 1 p)).

(** the vertices of the reference cell, mesh.py 4309-4318, and the points of its half-edge k,
    assembler.py 3446-3451 *)
Definition ref_vertex (k : nat) : pt := nth k [(0, 0); (1, 0); (1, 1); (0, 1)] (0, 0).
Definition ref_edge (k : nat) (r : Q) : pt :=
  let b := ref_vertex k in let h := ref_vertex ((k + 1) mod 4) in
  (fst b + r * (fst h - fst b), snd b + r * (snd h - snd b)).

(** what is integrated over *)
Inductive measure2 := Dx2 | Ds2 | Dv2.
Record form2 := mkForm2 { f2_kernel : kernel pt deriv; f2_test : option nat; f2_trial : option nat; f2_dmu : measure2; f2_flag : option flag }.

Section Local.
Context (e : elem) (M : rmesh) (s : dofs) (bases : list deriv) (crule : list pt * list Q) (erule : list Q * list Q) (norm : pt -> Q).
Notation m := (rm M).
(** element.shape at one reference point with the Jacobians of cell.reference_map, 3513-3533 *)
Definition shape_on (rect : bool) (q : quad) (der : deriv) (x : pt) (k : nat) : res Q :=
  match der with
  | V0 => shape2 e k x V0 None None (Some rect)
  | V1 i => match qjac_inv (qjac q (fst x) (snd x)) with
            | Some K => shape2 e k x (V1 i) (Some K) None (Some rect)
            | None => Err NameError end
  | V2 i j => match qjac_inv (qjac q (fst x) (snd x)) with
              | Some K => bind (hess_p2r_request rect true q (fst x) (snd x)) (fun H => shape2 e k x (V2 i j) (Some K) (Some H) (Some rect))
              | None => Err NameError end
  end.
Definition shape_row2 (rect : bool) (q : quad) (der : deriv) (x : pt) : res (list Q) := map_res (shape_on rect q der x) (seq 0 (n_dofs D2 e)).
Definition shape_tables2 (p : path) (refs : list pt) : res (list (nat * table)) :=
  bind (map_res (fun der => map_res (shape_row2 (cell_is_rectangle m p) (cell_quad m p) der) refs) bases) (fun ts => Ok (combine (seq 0 (length bases)) ts)).
(** a region of the cell: reference points and weights.  The cell itself, 3463-3480; a half-edge,
    3421-3461; a vertex, 3482-3507 *)
Definition spot := (list pt * list Q)%type.
Definition cell_spot (p : path) : spot :=
  (fst crule, map (fun xw => snd xw * qdet (qjac (cell_quad m p) (fst (fst xw)) (snd (fst xw)))) (combine (fst crule) (snd crule))).
Definition edge_spot (h k : nat) : spot :=
  let b := vx (hp m) (hbase (he (hp m) h)) in let t := vx (hp m) (hhead (he (hp m) h)) in
  (map (ref_edge k) (fst erule), map (fun w => w * norm (fst t - fst b, snd t - snd b)) (snd erule)).
Definition vertex_spot (k : nat) : spot := ([ref_vertex k], [1]).
(** Form.regions, 1177-1219 *)
Definition form_spots (fm : form2) (p : path) : list spot :=
  match f2_dmu fm with
  | Dx2 => if ent_marked M (f2_flag fm) (Cel p) then [cell_spot p] else []
  | Ds2 => map (fun hk => edge_spot (fst hk) (snd hk))
             (filter (fun hk => ent_marked M (f2_flag fm) (Hed (fst hk))) (combine (sides_of m p) (seq 0 4)))
  | Dv2 => map (fun vk => vertex_spot (snd vk))
             (filter (fun vk => ent_marked M (f2_flag fm) (Vtx (fst vk))) (combine (vertices_of m p) (seq 0 4)))
  end.
Definition region_of (p : path) (ds : list nat) (sp : spot) : res (region pt) :=
  bind (shape_tables2 p (fst sp)) (fun phi =>
  Ok (mkRegion (map (fun x => qmap (cell_quad m p) (fst x) (snd x)) (fst sp)) (snd sp) phi (map (fun i => (i, ds)) (seq 0 (length bases))))).
(** Form.eval and the dofs of update_cellwise, 2386-2440 *)
Definition local_form2 (fm : form2) (p : path) (ds : list nat) : res local :=
  let nd := n_dofs D2 e in
  bind (map_res (region_of p ds) (form_spots fm p)) (fun rs =>
  match f2_test fm, f2_trial fm with
  | None, _ => bind (eval_constant (f2_kernel fm) rs) (fun c => Ok (Constant (nth 0 c 0)))
  | Some t, None => bind (eval_linear (f2_kernel fm) t nd rs) (fun l => Ok (Linear ds (map (fun v => nth 0 v 0) l)))
  | Some t, Some u => bind (eval_bilinear (f2_kernel fm) t u nd nd rs) (fun l => Ok (Bilinear ds ds (tab nd nd (fun a b => nth 0 (nth a (nth b l []) []) 0))))
  end).
(** 2340-2440 for one cell; get_cell_dofs *)
Definition cell_locals2 (fms : list form2) (p : path) : res (list local) :=
  match cell_dofs1 s p with
  | Some ds => map_res (fun fm => local_form2 fm p ds) fms
  | None => Err TypeError
  end.
(** the loop over the leaves; a cell is identified by its position *)
Definition problem_cells2 (fms : list form2) (ps : list path) : res (list (nat * list local)) :=
  map_res (fun ip => bind (cell_locals2 fms (snd ip)) (fun l => Ok (fst ip, l))) (combine (seq 0 (length ps)) ps).
End Local.

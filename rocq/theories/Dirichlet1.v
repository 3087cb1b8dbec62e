(** * Dirichlet conditions and local forms of problems on one-dimensional meshes
    (src/assembler.py: Assembler.add_dirichlet 3538-3634, the loop over the forms of a cell
    in Assembler.assemble 2355-2440, Assembler.shape_eval 3330-3536, Form.regions 1177-1219)

    Simplifications: deterministic kernels (one sample), all bases belong to one dof handler,
    the quadrature rule on the reference interval is an argument (exact rationals); the shape
    functions of all bases are evaluated in every region (the code leaves out those that no form
    needs; without any, a vertex fails).  The vertices of an empty list of dofs have no values. *)
From Coq Require Import List Arith Bool QArith.
From Verif Require Import Tree Forest Geom Fem Dof DofVert Solver Basis Nodal Nodal1 Region Region1 Assemble Kernel.
Import ListNotations.
Open Scope Q_scope.

(** dir_fn: a number, a Map, a Nodal function with the dofs of the trial functions *)
Inductive dir_data := DConst (c : Q) | DMap (g : Q -> Q) | DSame.
(** 3608-3627; Nodal has no method dof2idx: AttributeError *)
Definition dir_values (dv : dverts) (df : dir_data) (ds : list (option nat)) : res (list Q) :=
  match df with
  | DConst c => Ok (map (fun _ => c) ds)
  | DMap g => bind (get_dof_vertices None dv ds) (fun xs => Ok (map g xs))
  | DSame => Err AttributeError
  end.
(** 3629-3634; a dof that is not assigned (-1) does not occur, it is left out *)
Definition store_dof (d : list (nat * Q)) (p : option nat * Q) : list (nat * Q) :=
  match fst p with Some k => store k (snd p) d | None => d end.
(** add_dirichlet: the dictionary [dir] afterwards *)
Definition add_dirichlet1 (e : elem) (M : mesh1) (s : dofs) (dv : dverts) (marker : option flag) (df : dir_data)
    (on_bnd : bool) (sf : option flag) (dir : list (nat * Q)) : res (list (nat * Q)) :=
  bind (dirichlet_dofs1 e M s marker on_bnd sf) (fun ds =>
  bind (dir_values dv df ds) (fun vs =>
  Ok (fold_left store_dof (combine ds vs) dir))).

(** A form: kernel, test and trial function (numbers in the list of the bases), measure, label
    of its region (Form 999-1110) *)
Inductive measure := Dx | Ds | Dv.
Record form1 := mkForm { fm_kernel : kernel Q deriv; fm_test : option nat; fm_trial : option nat; fm_dmu : measure; fm_flag : option flag }.
Section Local.
Context (e : elem) (M : mesh1) (s : dofs) (bases : list deriv) (rule : list Q * list Q).
(** element.shape at the reference nodes, 3518-3533: one table for each basis *)
Definition shape_row (d : itv) (der : deriv) (r : Q) : res (list Q) :=
  map_res (fun k => shape1 e k r der (Some (ijac_p2r d)) true) (seq 0 (n_dofs D1 e)).
Definition shape_tables (d : itv) (refs : list Q) : res (list (nat * table)) :=
  bind (map_res (fun der => map_res (shape_row d der) refs) bases) (fun ts => Ok (combine (seq 0 (length bases)) ts)).
(** the Interval itself, 3397-3419: nodes and weights of the rule, mapped to the cell *)
Definition cell_region (d : itv) (ds : list nat) : res (region Q) :=
  bind (shape_tables d (fst rule)) (fun phi =>
  Ok (mkRegion (map (imap d) (fst rule)) (map (fun w => w * ijac_r2p d) (snd rule)) phi (map (fun i => (i, ds)) (seq 0 (length bases))))).
(** a vertex, 3484-3507: the vertex of the reference interval with the weight 1 *)
Definition vertex_region (d : itv) (ds : list nat) (r : Q) : res (region Q) :=
  bind (shape_tables d [r]) (fun phi =>
  Ok (mkRegion [imap d r] [1] phi (map (fun i => (i, ds)) (seq 0 (length bases))))).
(** Form.regions, 1177-1219; an Interval has no get_half_edges *)
Definition form_regions (fm : form1) (p : path) (d : itv) (ds : list nat) : res (list (region Q)) :=
  match fm_dmu fm with
  | Dx => if match fm_flag fm with None => true | Some g => marked_at (m1_cells M) p g end
          then bind (cell_region d ds) (fun r => Ok [r]) else Ok []
  | Ds => Err AttributeError
  | Dv => map_res (fun vr => vertex_region d ds (snd vr))
            (filter (fun vr => match fm_flag fm with None => true | Some g => m1_lab M (fst vr) g end) [(Qred (fst d), 0); (Qred (snd d), 1)])
  end.
(** Form.eval and the dofs of update_cellwise, 2386-2440: entry (a,b) is f_loc[a,b,0] *)
Definition local_form (fm : form1) (p : path) (d : itv) (ds : list nat) : res local :=
  let nd := n_dofs D1 e in
  bind (form_regions fm p d ds) (fun rs =>
  match fm_test fm, fm_trial fm with
  | None, _ => bind (eval_constant (fm_kernel fm) rs) (fun c => Ok (Constant (nth 0 c 0)))
  | Some t, None => bind (eval_linear (fm_kernel fm) t nd rs) (fun l => Ok (Linear ds (map (fun v => nth 0 v 0) l)))
  | Some t, Some u => bind (eval_bilinear (fm_kernel fm) t u nd nd rs) (fun l => Ok (Bilinear ds ds (tab nd nd (fun a b => nth 0 (nth a (nth b l []) []) 0))))
  end).
Definition cell_locals (fms : list form1) (p : path) : res (list local) :=
  match fget (m1_cells M) p, cell_dofs1 s p with
  | Some n, Some ds => map_res (fun fm => local_form fm p (n_data n) ds) fms
  | _, _ => Err TypeError
  end.
(** the loop over the leaves, 2340-2440; a cell is identified by its position *)
Definition problem_cells (fms : list form1) (ps : list path) : res (list (nat * list local)) :=
  map_res (fun ip => bind (cell_locals fms (snd ip)) (fun l => Ok (fst ip, l))) (combine (seq 0 (length ps)) ps).
End Local.

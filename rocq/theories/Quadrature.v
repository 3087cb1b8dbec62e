(** * Gauss rules and local forms (src/assembler.py: GaussRule 13-411, shape_eval
    3330-3536, Form.eval 1222-1432)

    Over the real numbers (the floating point rounding of the code is not modelled;
    decimal literals of the code are taken as written).  A rule is the list of its
    nodes with their weights. *)
From Coq Require Import List Reals.
From Verif Require Import Tree.
Import ListNotations.
Open Scope R_scope.

Definition rule1 := list (R * R).
Definition rule2 := list (R * R * R).

(** 80-143: the rules on [-1, 1] *)
Definition gauss_ref (n : nat) : rule1 :=
  match n with
  | 1%nat => [(0, 2)]
  | 2%nat => let r0 := -1 / sqrt 3 in [(r0, 1); (- r0, 1)]
  | 3%nat => let r0 := - sqrt (3 / 5) in [(r0, 5 / 9); (0, 8 / 9); (- r0, 5 / 9)]
  | 4%nat =>
    let r0 := - sqrt ((3 + 2 * sqrt (6 / 5)) / 7) in
    let r1 := - sqrt ((3 - 2 * sqrt (6 / 5)) / 7) in
    let w0 := 0.5 - 1 / (6 * sqrt (6 / 5)) in
    let w1 := 0.5 + 1 / (6 * sqrt (6 / 5)) in
    [(r0, w0); (r1, w1); (- r1, w1); (- r0, w0)]
  | 5%nat =>
    let r0 := - sqrt (5 + 4 * sqrt (5 / 14)) / 3 in
    let r1 := - sqrt (5 - 4 * sqrt (5 / 14)) / 3 in
    let w0 := 161 / 450 - 13 / (180 * sqrt (5 / 14)) in
    let w1 := 161 / 450 + 13 / (180 * sqrt (5 / 14)) in
    [(r0, w0); (r1, w1); (0, 128 / 225); (- r1, w1); (- r0, w0)]
  | 6%nat =>
    let r0 := -0.2386191861 in
    let r1 := -0.6612093865 in
    let r2 := -0.9324695142 in
    let w0 := 0.4679139346 in
    let w1 := 0.3607615730 in
    let w2 := 0.1713244924 in
    [(r0, w0); (r1, w1); (r2, w2); (- r0, w0); (- r1, w1); (- r2, w2)]
  | _ => []
  end.
(** 145-149: transformation to [0, 1] *)
Definition unit_rule (l : rule1) : rule1 := map (fun p => (0.5 + 0.5 * fst p, 0.5 * snd p)) l.
(** 151-169: GaussRule(order, shape='interval') and GaussRule(order, shape='quadrilateral') *)
Definition interval_rule (order : nat) : res rule1 :=
  if existsb (Nat.eqb order) [1; 2; 3; 4; 5; 6]%nat then Ok (unit_rule (gauss_ref order)) else Err AssertionError.
Definition tensor (l : rule1) : rule2 :=
  concat (map (fun p => map (fun q => (fst p, fst q, snd p * snd q)) l) l).
Definition square_rule (order : nat) : res rule2 :=
  if existsb (Nat.eqb order) [1; 4; 9; 16; 25; 36]%nat then Ok (tensor (unit_rule (gauss_ref (Nat.sqrt order)))) else Err AssertionError.

(** 306-408, scale_rule: the rule on a sub-interval or sub-square *)
Definition scale1 (position scale : R) (l : rule1) : rule1 :=
  map (fun p => (position + scale * fst p, scale * snd p)) l.
Definition scale2 (position : R * R) (scale : R) (l : rule2) : rule2 :=
  map (fun p => (fst position + scale * fst (fst p), snd position + scale * snd (fst p), scale ^ 2 * snd p)) l.

(** shape_eval, 3402-3419 with Interval.reference_map (mesh.py 3180-3204) *)
Definition map_interval (x0 x1 : R) (l : rule1) : rule1 :=
  map (fun p => (x0 + (x1 - x0) * fst p, snd p * (x1 - x0))) l.
(** shape_eval, 3421-3439 with HalfEdge.reference_map (mesh.py 2605-2638) *)
Definition map_edge (b h : R * R) (l : rule1) : rule2 :=
  map (fun p => (fst b + (fst h - fst b) * fst p, snd b + (snd h - snd b) * fst p,
                 snd p * sqrt ((fst h - fst b) ^ 2 + (snd h - snd b) ^ 2))) l.
(** shape_eval, 3461-3481 with QuadCell.reference_map (mesh.py 3872-4022) *)
Definition quadr := (R * R * (R * R) * (R * R) * (R * R))%type.
Definition bilinear (a b c d s t : R) : R := a * (1 - s) * (1 - t) + b * s * (1 - t) + c * s * t + d * (1 - s) * t.
Definition quad_map (q : quadr) (s t : R) : R * R :=
  let '(sw, se, ne, nw) := q in
  (bilinear (fst sw) (fst se) (fst ne) (fst nw) s t, bilinear (snd sw) (snd se) (snd ne) (snd nw) s t).
Definition quad_jac_det (q : quadr) (s t : R) : R :=
  let '(sw, se, ne, nw) := q in
  let xs := - fst sw * (1 - t) + fst se * (1 - t) + fst ne * t - fst nw * t in
  let ys := - snd sw * (1 - t) + snd se * (1 - t) + snd ne * t - snd nw * t in
  let xt := - fst sw * (1 - s) - fst se * s + fst ne * s + fst nw * (1 - s) in
  let yt := - snd sw * (1 - s) - snd se * s + snd ne * s + snd nw * (1 - s) in
  xs * yt - xt * ys.
Definition map_quad (q : quadr) (l : rule2) : rule2 :=
  map (fun p => let x := quad_map q (fst (fst p)) (snd (fst p)) in
                (fst x, snd x, snd p * quad_jac_det q (fst (fst p)) (snd (fst p)))) l.
(** 3441-3459: the nodes on a half-edge when basis functions are evaluated on it:
    the i-th half-edge of the reference square, mapped to the cell *)
Definition ref_edge (i : nat) : (R * R) * (R * R) :=
  match i with
  | 0%nat => ((0, 0), (1, 0))
  | 1%nat => ((1, 0), (1, 1))
  | 2%nat => ((1, 1), (0, 1))
  | _ => ((0, 1), (0, 0))
  end.
Definition edge_nodes (q : quadr) (i : nat) (l : rule1) : list (R * R) :=
  let '(b, h) := ref_edge i in
  map (fun p => quad_map q (fst b + fst p * (fst h - fst b)) (snd b + fst p * (snd h - snd b))) l.

(** Form.eval on the regions of a cell, one sample.  A region: for every quadrature
    node the weight, the kernel, the values of the test and trial functions. *)
Record node := mkN { n_w : R; n_ker : R; n_test : list R; n_trial : list R }.
Definition rsum (l : list R) : R := fold_right Rplus 0 l.
(** constant form 1262-1274 *)
Definition eval_constant (regions : list (list node)) : R :=
  fold_left (fun f reg => f + rsum (map (fun p => n_w p * n_ker p) reg)) regions 0.
(** linear form 1276-1295: f_loc += test.T wKer *)
Definition eval_linear (n_test_dofs : nat) (regions : list (list node)) : list R :=
  fold_left (fun f reg => map (fun i => nth i f 0 + rsum (map (fun p => nth i (n_test p) 0 * (n_w p * n_ker p)) reg)) (seq 0 n_test_dofs))
    regions (repeat 0 n_test_dofs).
(** bilinear form 1297-1350: f_loc[:,i] += test.T (trial[:,i] wKer) *)
Definition eval_bilinear (n_test_dofs n_trial_dofs : nat) (regions : list (list node)) : list (list R) :=
  fold_left (fun f reg =>
      map (fun i => map (fun j => nth j (nth i f []) 0 + rsum (map (fun p => nth i (n_test p) 0 * (nth j (n_trial p) 0 * (n_w p * n_ker p))) reg))
                        (seq 0 n_trial_dofs)) (seq 0 n_test_dofs))
    regions (repeat (repeat 0 n_trial_dofs) n_test_dofs).

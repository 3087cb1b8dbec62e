(** * Geometry of half-edges (src/mesh.py: HalfEdge.to_vector, contains_points, intersects_line_segment,
    subcell_position, reference_map 2334-2652; Cell.intersects_line_segment 3592-3622)

    Exact rationals; the tolerances of the code are the constants below.
    One point at a time. *)
From Coq Require Import List Arith Bool QArith Qabs Qminmax.
From Verif Require Import Tree Forest Geom.
Import ListNotations.
Open Scope Q_scope.

Definition tol10 : Q := 1 # 10000000000.
Definition tol14 : Q := 1 # 100000000000000.
(** |t - 0.5| > 0.5 discards the point *)
Definition in01 (t : Q) : bool := negb (Qltb (1 # 2) (Qabs (t - (1 # 2)))).

(** contains_points, 2362-2420.  The second test is np.abs(v[1] < 1e-14), that
    is v[1] < 1e-14 (2396) *)
Definition edge_contains (h : edge) (p : pt) : res bool :=
  let v := vec h in let x0 := fst (fst h) in let y0 := snd (fst h) in
  if Qltb (Qabs (fst v)) tol10 then
    if Qltb tol10 (Qabs (snd v)) then
      Ok (in01 ((snd p - y0) / snd v) && negb (Qltb tol10 (Qabs (fst p - x0))))
    else Err AssertionError
  else if Qltb (snd v) tol14 then
    if Qltb tol10 (Qabs (fst v)) then
      Ok (in01 ((fst p - x0) / fst v) && negb (Qltb tol10 (Qabs (snd p - y0))))
    else Err AssertionError
  else
    let s := (fst p - x0) / fst v in let t := (snd p - y0) / snd v in
    Ok (negb (Qltb tol10 (Qabs (t - s))) && in01 t).

Definition cross (u v : pt) : Q := fst u * snd v - snd u * fst v.
Definition dot (u v : pt) : Q := fst u * fst v + snd u * snd v.
Definition diff (u v : pt) : pt := (fst u - fst v, snd u - snd v).
(** intersects_line_segment, 2424-2485; half-edges have positive length (else 0/0) *)
Definition edge_intersects (h : edge) (l : edge) : bool :=
  let p := fst h in let r := vec h in let q := fst l in let s := vec l in
  if Qltb (Qabs (cross r s)) tol14 then
    if Qltb (Qabs (cross (diff q p) r)) tol14 then
      let t0 := dot (diff q p) r / dot r r in
      let t1 := t0 + dot s r / dot r r in
      Qle_bool 0 (Qmax t0 t1) && Qle_bool (Qmin t0 t1) 1
    else false
  else
    let t := cross (diff q p) s / cross r s in
    let u := cross (diff p q) r / cross s r in
    (Qle_bool 0 t && Qle_bool t 1) && (Qle_bool 0 u && Qle_bool u 1).

(** Cell.intersects_line_segment, 3607-3622, with the tolerance of contains_points *)
Definition cell_intersects (tol : Q) (q : quad) (l : edge) : bool :=
  (qcontains tol q (fst l) && qcontains tol q (snd l)) || existsb (fun h => edge_intersects h l) (edges q).

(** reference_map, 2582-2622.  mapsto='physical': the assertion looks at the largest
    and the smallest point only *)
Definition edge_point (h : edge) (t : Q) : pt := (fst (fst h) + fst (vec h) * t, snd (fst h) + snd (vec h) * t).
Definition qlist_max (l : list Q) : Q := match l with [] => 0 | x :: r => fold_left Qmax r x end.
Definition qlist_min (l : list Q) : Q := match l with [] => 0 | x :: r => fold_left Qmin r x end.
Definition edge_to_physical (h : edge) (ts : list Q) : res (list pt) :=
  match ts with
  | [] => Err ValueError
  | _ => if Qle_bool 0 (qlist_max ts) && Qle_bool (qlist_min ts) 1 then Ok (map (edge_point h) ts) else Err AssertionError
  end.
(** np.isclose *)
Definition isclose (a b : Q) : bool := Qle_bool (Qabs (a - b)) ((1 # 100000000) + (1 # 100000) * Qabs b).
(** mapsto='reference'; x_trg is unbound if both coordinates are close *)
Definition edge_to_reference (h : edge) (p : pt) : res Q :=
  bind (edge_contains h p) (fun b =>
  if negb b then Err AssertionError
  else if negb (isclose (fst (fst h)) (fst (snd h))) then Ok ((fst p - fst (fst h)) / fst (vec h))
  else if negb (isclose (snd (fst h)) (snd (snd h))) then Ok ((snd p - snd (fst h)) / snd (vec h))
  else Err NameError).

(** subcell_position, 2512-2534: the position; x1_ref = x0_ref is a division by zero.
    The width is returned squared (no square roots). *)
Definition edge_position (h sub : edge) : res (Q * Q) :=
  bind (edge_contains h (fst sub)) (fun a =>
  bind (edge_contains h (snd sub)) (fun b =>
  if negb (a && b) then Err AssertionError
  else if Qeq_bool (fst (snd h) - fst (fst h)) 0 then Err GenericException
  else Ok ((fst (fst sub) - fst (fst h)) / (fst (snd h) - fst (fst h)), dot (vec sub) (vec sub) / dot (vec h) (vec h)))).

(** * Geometry of intervals and quadrilateral cells (/repo/src/mesh.py).
    Coordinates are exact rationals (floats are not modelled).  A cell is
    described by the coordinates of its vertices in the order in which
    [get_vertices] lists them. *)
From Coq Require Import List Arith Bool QArith Qminmax Qabs.
Import ListNotations.
From Verif Require Import Tree Forest.
Open Scope Q_scope.

Definition Qn (n : nat) : Q := inject_Z (Z.of_nat n).
Definition Qltb (a b : Q) : bool := negb (Qle_bool b a).

(** ** Interval *)
Definition itv := (Q * Q)%type.

(** mesh.py 2933-2958: the loop of Interval.split; [base] is the head of the
    previous subinterval, [k] subintervals are still to be made. *)
Fixpoint isplit_loop (x0 x1 : Q) (n i k : nat) (base : Q) : list itv :=
  match k with
  | O => []
  | S k' =>
      let head := if Nat.eqb i (n - 1) then x1 else x0 + Qn (i + 1) * (x1 - x0) / Qn n in
      (base, head) :: isplit_loop x0 x1 n (S i) k' head
  end.
Definition isplit (n : nat) (d : itv) : list itv := isplit_loop (fst d) (snd d) n 0 n (fst d).
(** the payload of child [i] of [n] *)
Definition ikid (i n : nat) (d : itv) : itv := nth i (isplit n d) d.

(** mesh.py 3052-3079: Interval.contains_points for one point *)
Definition icontains (d : itv) (x : Q) : bool := negb (Qltb x (fst d)) && negb (Qltb (snd d) x).
(** mesh.py 3176-3180, 'physical' and 'reference' *)
Definition imap (d : itv) (x : Q) : Q := fst d + (snd d - fst d) * x.
Definition imap_inv (d : itv) (x : Q) : Q := (x - fst d) / (snd d - fst d).
(** mesh.py 3202-3222 *)
Definition ijac_r2p (d : itv) : Q := snd d - fst d.
Definition ijac_p2r (d : itv) : Q := 1 / (snd d - fst d).
(** mesh.py 3082-3125 *)
Definition isubcell_position (d sub : itv) : res (Q * Q) :=
  let width := (snd sub - fst sub) / (snd d - fst d) in
  let pos := (fst sub - fst d) / (snd d - fst d) in
  if Qle_bool 0 pos && Qle_bool pos 1 then Ok (pos, width) else Err AssertionError.

(** ** Quadrilaterals *)
Definition pt := (Q * Q)%type.
Definition quad := (pt * pt * pt * pt)%type.
Definition verts (q : quad) : list pt := let '(a, b, c, d) := q in [a; b; c; d].
Definition vert (q : quad) (i : nat) : pt := nth (i mod 4) (verts q) (0, 0).

(** the half-edges of a cell as (base, head) pairs, mesh.py 3282-3293 *)
Definition edge := (pt * pt)%type.
Definition edges (q : quad) : list edge :=
  map (fun i => (vert q i, vert q (i + 1))) (seq 0 4).

(** mesh.py 3366-3375: Cell.area, for any list of half-edges *)
Definition area_of (hs : list edge) : Q :=
  (1 # 2) * fold_left (fun s h => s + (fst (fst h) + fst (snd h)) * (snd (snd h) - snd (fst h))) hs 0.
Definition area (q : quad) : Q := area_of (edges q).

(** mesh.py 3378-3388 *)
Definition bounding_box (q : quad) : Q * Q * Q * Q :=
  let xs := map fst (verts q) in
  let ys := map snd (verts q) in
  let mn l := match l with [] => 0 | x :: r => fold_left Qmin r x end in
  let mx l := match l with [] => 0 | x :: r => fold_left Qmax r x end in
  (mn xs, mx xs, mn ys, mx ys).

(** mesh.py 3574-3575: "positive means left" *)
Definition left_of (h : edge) (p : pt) : Q :=
  (snd p - snd (fst h)) * (fst (snd h) - fst (fst h)) -
  (fst p - fst (fst h)) * (snd (snd h) - snd (fst h)).
(** mesh.py 3546-3582: Cell.contains_points for one point *)
Definition qcontains (tol : Q) (q : quad) (p : pt) : bool :=
  forallb (fun h => negb (Qltb (left_of h p) (- tol))) (edges q).

(** mesh.py 2311-2314 (midpoint of a half-edge) and 3666-3667 (the centre) *)
Definition midpoint (a b : pt) : pt := ((1 # 2) * (fst a + fst b), (1 # 2) * (snd a + snd b)).
Definition centre (q : quad) : pt :=
  let '(a, b, c, d) := q in
  ((1 # 4) * (fst a + fst b + fst c + fst d), (1 # 4) * (snd a + snd b + snd c + snd d)).
(** deque.rotate(1): the last entry moves to the front *)
Definition rot1 {X} (l : list X) : list X :=
  match rev l with [] => [] | x :: r => x :: rev r end.
Fixpoint rotate {X} (k : nat) (l : list X) : list X :=
  match k with O => l | S k' => rotate k' (rot1 l) end.
(** mesh.py 3688-3698: the half-edges of child [i] *)
Definition child_edges (q : quad) (i : nat) : list edge :=
  let m j := midpoint (vert q j) (vert q (j + 1)) in
  let h1 := (vert q i, m i) in
  let h2 := (m i, centre q) in
  let h3 := (centre q, m (i + 3)%nat) in
  let h4 := (m (i + 3)%nat, vert q i) in
  rotate i [h1; h2; h3; h4].
(** get_vertices of the child: the bases of its half-edges *)
Definition qchild (i : nat) (q : quad) : quad :=
  match map fst (child_edges q i) with
  | [a; b; c; d] => (a, b, c, d)
  | _ => q
  end.
Definition qkid (i n : nat) (q : quad) : quad := qchild i q.
(** mesh.py 3654-3706 with the winding check of the constructor 3306-3318 and
    3391-3397: children are made in turn, the first with non-positive area
    raises AssertionError *)
Definition make_cell (hs : list edge) (q : quad) : res quad :=
  if Qltb 0 (area_of hs) then Ok q else Err AssertionError.
Definition qsplit (q : quad) : res (list quad) :=
  fold_res (fun l i => bind (make_cell (child_edges q i) (qchild i q)) (fun c => Ok (l ++ [c])))
           (seq 0 4) [].

(** mesh.py 3628-3640: is_rectangle of a root cell of a mesh that is not known
    to be rectangular *)
Definition vec (h : edge) : pt := (fst (snd h) - fst (fst h), snd (snd h) - snd (fst h)).
Definition eps12 : Q := 1 # 1000000000000.
Definition is_rectangle (q : quad) : bool :=
  forallb (fun i =>
    let u := vec (vert q i, vert q (i + 1)) in
    let w := vec (vert q (i + 1), vert q (i + 2)) in
    let on_axis := Qltb (Qmin (Qabs (fst u)) (Qabs (snd u))) eps12 in
    let perpendicular := Qltb (Qabs (fst u * fst w + snd u * snd w)) eps12 in
    perpendicular && on_axis) (seq 0 4).

(** ** subcell_position, mesh.py 3728-3794.
    [own], [sub] are the stored addresses, [cont] the answer of
    [self.contains(subcell)]. *)
Definition sign (i : nat) : pt :=
  nth i [(0, 0); (1, 0); (0, 1); (- (1), 0); (0, - (1))] (0, 0).
Fixpoint half_pow (k : nat) : Q := match k with O => 1 | S k' => (1 # 2) * half_pow k' end.
(** the loop over one level; [pos] is added sign by sign *)
Definition level_pos (level pos : nat) (r : pt) : pt :=
  fold_left (fun r i => (fst r + half_pow (level + 1) * fst (sign i),
                         snd r + half_pow (level + 1) * snd (sign i)))
            (seq 0 (pos + 1)) r.
Fixpoint rel_pos (level : nat) (a : list nat) (r : pt) : pt :=
  match a with [] => r | p :: a' => rel_pos (S level) a' (level_pos level p r) end.
(** 3776-3783: [sub] must start with [own]; IndexError if it is too short *)
Fixpoint strip (own sub : list nat) : res (list nat) :=
  match own, sub with
  | [], _ => Ok sub
  | _ :: _, [] => Err IndexError
  | a :: o, b :: s => if Nat.eqb a b then strip o s else Err AssertionError
  end.
Definition qsubcell_position (own sub : list nat) (cont : bool) : res (pt * Q) :=
  bind (match own with
        | [] => if cont then Ok sub else Err AssertionError
        | _ => strip own sub
        end)
       (fun rel => match rel with
                   | [] => Err NameError              (* [level] is unbound *)
                   | _ => Ok (rel_pos 0 rel (0, 0), half_pow (length rel))
                   end).

(** ** reference_map, mesh.py 3862-4072 *)
(** 3930-3935 *)
Definition qmap (q : quad) (s t : Q) : pt :=
  let '(sw, se, ne, nw) := q in
  (fst sw * (1 - s) * (1 - t) + fst se * s * (1 - t) + fst ne * s * t + fst nw * (1 - s) * t,
   snd sw * (1 - s) * (1 - t) + snd se * s * (1 - t) + snd ne * s * t + snd nw * (1 - s) * t).
(** 3946-3955: explicit inverse; None where numpy divides by zero *)
Definition sdiv (a b : Q) : option Q := if Qeq_bool b 0 then None else Some (a / b).
Definition rect_inv (q : quad) (p : pt) : option pt :=
  let '(sw, se, ne, nw) := q in
  match sdiv (fst p - fst sw) (fst se - fst sw), sdiv (snd p - snd sw) (snd nw - snd sw) with
  | Some s, Some t => Some (s, t)
  | _, _ => None
  end.
(** 3978-3981 and 4008-4011: the entries xs, xt, ys, yt *)
Record jac := mkJac { j11 : Q; j12 : Q; j21 : Q; j22 : Q }.
Definition qjac (q : quad) (s t : Q) : jac :=
  let '(sw, se, ne, nw) := q in
  {| j11 := - fst sw * (1 - t) + fst se * (1 - t) + fst ne * t - fst nw * t;
     j21 := - snd sw * (1 - t) + snd se * (1 - t) + snd ne * t - snd nw * t;
     j12 := - fst sw * (1 - s) - fst se * s + fst ne * s + fst nw * (1 - s);
     j22 := - snd sw * (1 - s) - snd se * s + snd ne * s + snd nw * (1 - s) |}.
Definition qdet (J : jac) : Q := j11 J * j22 J - j12 J * j21 J.
Definition clamp (x : Q) : Q := Qmin (Qmax x 0) 1.
(** 3966-3994: one Newton step with projection; None where Det = 0 *)
Definition newton_step (q : quad) (p st : pt) : option pt :=
  let '(s, t) := st in
  let r := qmap q s t in
  let rx := fst r - fst p in
  let ry := snd r - snd p in
  let J := qjac q s t in
  match sdiv (j22 J * rx - j12 J * ry) (qdet J), sdiv (- j21 J * rx + j11 J * ry) (qdet J) with
  | Some ds, Some dt => Some (clamp (s - ds), clamp (t - dt))
  | _, _ => None
  end.
Fixpoint newton (k : nat) (q : quad) (p st : pt) : option pt :=
  match k with
  | O => Some st
  | S k' => match newton_step q p st with Some st' => newton k' q p st' | None => None end
  end.
(** 3938-3997, mapsto='reference' *)
Definition qmap_inv (rect : bool) (q : quad) (p : pt) : option pt :=
  if rect then rect_inv q p else newton 5 q p (1 # 2, 1 # 2).
(** 4019-4031: jac_p2r *)
Definition qjac_inv (J : jac) : option jac :=
  let D := qdet J in
  match sdiv (j22 J) D, sdiv (- j12 J) D, sdiv (- j21 J) D, sdiv (j11 J) D with
  | Some a, Some b, Some c, Some d => Some {| j11 := a; j12 := b; j21 := c; j22 := d |}
  | _, _, _, _ => None
  end.
(** 4041-4049: hess_r2p of the non-rectangular branch: the mixed derivatives *)
Definition qmixed (q : quad) : pt :=
  let '(sw, se, ne, nw) := q in
  (fst sw - fst se + fst ne - fst nw, snd sw - snd se + snd ne - snd nw).
(** 4056-4104: hess_p2r; sxx, sxy, syy, txx, txy, tyy *)
Record hess := mkHess { sxx : Q; sxy : Q; syy : Q; txx : Q; txy : Q; tyy : Q }.
Definition zero_hess : hess := mkHess 0 0 0 0 0 0.
Definition qhess_inv (rect : bool) (q : quad) (s t : Q) : hess :=
  if rect then zero_hess
  else
    let J := qjac q s t in
    let xs := j11 J in let xt := j12 J in let ys := j21 J in let yt := j22 J in
    let Det := xs * yt - xt * ys in
    let sx := yt / Det in let sy := - xt / Det in
    let tx := - ys / Det in let ty := xs / Det in
    let Dx := fst (qmixed q) in let Dy := snd (qmixed q) in
    let dxt_dx := Dx * sx in let dxt_dy := Dx * sy in
    let dyt_dx := Dy * sx in let dyt_dy := Dy * sy in
    let dxs_dx := Dx * tx in let dxs_dy := Dx * ty in
    let dys_dx := Dy * tx in let dys_dy := Dy * ty in
    let dDet_dx := dxs_dx * yt + dyt_dx * xs - dys_dx * xt - dxt_dx * ys in
    let dDet_dy := dxs_dy * yt + dyt_dy * xs - dys_dy * xt - dxt_dy * ys in
    {| sxx := dyt_dx / Det - yt * dDet_dx / (Det * Det);
       sxy := dyt_dy / Det - yt * dDet_dy / (Det * Det);
       syy := - dxt_dy / Det + xt * dDet_dy / (Det * Det);
       txx := - dys_dx / Det + ys * dDet_dx / (Det * Det);
       txy := - dys_dy / Det + ys * dDet_dy / (Det * Det);
       tyy := dxs_dy / Det - xs * dDet_dy / (Det * Det) |}.

(** Which gradients can be asked for: hess_p2r alone on a non-rectangular cell
    reads [sx], [tx], ... that are only assigned if jac_p2r is also asked for
    (4019-4031 and 4066-4073): NameError. *)
Definition hess_p2r_request (rect jac_p2r : bool) (q : quad) (s t : Q) : res hess :=
  if rect then Ok zero_hess
  else if jac_p2r then Ok (qhess_inv rect q s t) else Err NameError.

(** ** bin_points, mesh.py 2985-3048 (Interval), 3797-3859 (QuadCell: the same
    text), 6668-6717 and 7747-7798 (meshes).
    [inside] is contains_points for one point; points carry their index. *)
Section Bin.
Context {A P : Type}.
Variable inside : A -> P -> bool.
Definition ipts := list (nat * P).
Definition binned := list (path * list nat).

(** a node that is in the submesh *)
Fixpoint bin_node (sf : option flag) (p : path) (n : node A) (pts : ipts) {struct n} : res binned :=
  match n with
  | Node m d ks =>
    if negb (forallb (fun ix => inside d (snd ix)) pts) then Err AssertionError
    else if has_children n sf then
      (fix go (i : nat) (l : list (option (node A))) (x : ipts) {struct l} : res binned :=
         match l with
         | [] => Ok []
         | None :: r => go (S i) r x
         | Some k :: r =>
             if (match sf with None => true | Some _ => is_marked k sf end) then
               let y := filter (fun ix => inside (n_data k) (snd ix)) x in
               match y with
               | [] => go (S i) r x
               | _ => bind (bin_node sf (p ++ [i]) k y) (fun b1 =>
                      bind (go (S i) r (filter (fun ix => negb (inside (n_data k) (snd ix))) x))
                           (fun b2 => Ok (b1 ++ b2)))
               end
             else go (S i) r x
         end) O ks pts
    else Ok [(p, map fst pts)]
  end.

(** a node that need not be in the submesh: climb until one is (3013-3021);
    every parent asserts that it contains the points *)
Fixpoint bin_climb (sf : option flag) (f : forest A) (p : path) (anc : list path) (pts : ipts) : res binned :=
  match fget f p with
  | None => Err AttributeError
  | Some n =>
      if negb (forallb (fun ix => inside (n_data n) (snd ix)) pts) then Err AssertionError
      else match sf with
           | None => bin_node sf p n pts
           | Some _ => if is_marked n sf then bin_node sf p n pts
                       else match anc with
                            | [] => Ok []
                            | a :: r => bin_climb sf f a r pts
                            end
           end
  end.
Definition cell_bin_points (sf : option flag) (f : forest A) (p : path) (pts : ipts) : res binned :=
  bin_climb sf f p (ancestors p) pts.

(** the mesh method: over the roots in the submesh *)
Fixpoint mesh_bin (sf : option flag) (f : forest A) (rs : list (path * node A)) (x : ipts) : res (binned * ipts) :=
  match rs with
  | [] => Ok ([], x)
  | (p, n) :: r =>
      match filter (fun ix => inside (n_data n) (snd ix)) x with
      | [] => mesh_bin sf f r x
      | y => bind (cell_bin_points sf f p y) (fun b1 =>
             bind (mesh_bin sf f r (filter (fun ix => negb (inside (n_data n) (snd ix))) x)) (fun b2 =>
             Ok (b1 ++ fst b2, snd b2)))
      end
  end.
Definition mesh_bin_points (sf : option flag) (f : forest A) (pts : list P) : res binned :=
  match fget_children f sf false with
  | None => Err TypeError
  | Some rs =>
      bind (mesh_bin sf f rs (combine (seq 0 (length pts)) pts)) (fun b =>
      match snd b with [] => Ok (fst b) | _ => Err AssertionError end)
  end.
End Bin.

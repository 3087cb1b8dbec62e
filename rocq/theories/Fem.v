(** * Finite elements on intervals and quadrilaterals
    (src/fem.py: QuadFE 93-716; src/mesh.py: RVertex 4125-4176, RHalfEdge
    4177-4284, RQuadCell 4285-4564, RInterval 4565-4836)

    Simplifications, used throughout this file:
    - numbers are exact rationals; the decimal and quotient constants of the code
      (4.5, 1./3., ...) are the rationals they denote.  np.allclose is equality:
      all points that are compared are multiples of 1/6.
    - functions of arrays of points are modelled for one point.
    - 'Q0' and unknown names are not elements (the constructor raises). *)
From Coq Require Import List Arith Bool QArith.
From Verif Require Import Tree Geom.
Import ListNotations.
Open Scope nat_scope.

Inductive elem := DQ0 | Q1 | DQ1 | Q2 | DQ2 | Q3 | DQ3.
Inductive dim := D1 | D2.
Definition all_elems : list elem := [DQ0; Q1; DQ1; Q2; DQ2; Q3; DQ3].

(** polynomial_degree, fem.py 302-306: the last character of the name *)
Definition degree (e : elem) : nat :=
  match e with DQ0 => 0 | Q1 | DQ1 => 1 | Q2 | DQ2 => 2 | Q3 | DQ3 => 3 end.
(** torn_element, fem.py 277, 295-299 *)
Definition torn (e : elem) : bool := match e with DQ0 | DQ1 | DQ2 | DQ3 => true | _ => false end.

(** dofs_per_vertex, dofs_per_edge, dofs_per_cell, fem.py 118-128, 147-162,
    189-206, 240-255 *)
Definition dpv (e : elem) : nat := match e with DQ0 => 0 | _ => 1 end.
Definition dpe (d : dim) (e : elem) : nat :=
  match e with DQ0 => match d with D1 => 1 | D2 => 0 end | Q1 | DQ1 => 0 | Q2 | DQ2 => 1 | Q3 | DQ3 => 2 end.
Definition dpc (d : dim) (e : elem) : nat :=
  match d with D1 => 0 | D2 => match e with DQ0 => 1 | Q1 | DQ1 => 0 | Q2 | DQ2 => 1 | Q3 | DQ3 => 4 end end.
(** n_dofs, fem.py 309-324 *)
Definition n_dofs (d : dim) (e : elem) : nat :=
  match d with D1 => 2 * dpv e + dpe D1 e | D2 => 4 * dpv e + 4 * dpe D2 e + dpc D2 e end.

(** ** the one-dimensional polynomials *)
Definition third : Q := 1 # 3.
Definition two3 : Q := 2 # 3.
(** p, fem.py 115, 144, 177-179, 222-225 *)
Definition pol (e : elem) : list (Q -> Q) :=
  (match e with
   | DQ0 => [fun x => 1]
   | Q1 | DQ1 => [fun x => 1 - x; fun x => x]
   | Q2 | DQ2 => [fun x => 2 * x * x - 3 * x + 1; fun x => 2 * x * x - x; fun x => 4 * x - 4 * x * x]
   | Q3 | DQ3 => [fun x => - (9 # 2) * (x - third) * (x - two3) * (x - 1);
                  fun x => (9 # 2) * x * (x - third) * (x - two3);
                  fun x => (27 # 2) * x * (x - two3) * (x - 1);
                  fun x => - (27 # 2) * x * (x - third) * (x - 1)]
   end)%Q.
(** px, fem.py 116, 145, 181-183, 227-230 *)
Definition pol_x (e : elem) : list (Q -> Q) :=
  (match e with
   | DQ0 => [fun x => 0]
   | Q1 | DQ1 => [fun x => - (1); fun x => 1]
   | Q2 | DQ2 => [fun x => 4 * x - 3; fun x => 4 * x - 1; fun x => 4 - 8 * x]
   | Q3 | DQ3 => [fun x => - (27 # 2) * x * x + 18 * x - (11 # 2);
                  fun x => (27 # 2) * x * x - 9 * x + 1;
                  fun x => (81 # 2) * x * x - 45 * x + 9;
                  fun x => - (81 # 2) * x * x + 36 * x - (9 # 2)]
   end)%Q.
(** pxx, fem.py 117, 146, 185-187, 232-235 *)
Definition pol_xx (e : elem) : list (Q -> Q) :=
  (match e with
   | DQ0 => [fun x => 0]
   | Q1 | DQ1 => [fun x => 0; fun x => 0]
   | Q2 | DQ2 => [fun x => 4; fun x => 4; fun x => - (8)]
   | Q3 | DQ3 => [fun x => - (27) * x + 18; fun x => 27 * x - 9; fun x => 81 * x - 45; fun x => - (81) * x + 36]
   end)%Q.
(** basis_index, fem.py 122, 127, 155, 163, 196, 204-205, 247, 254-256 *)
Definition basis_index1 (e : elem) : list nat :=
  match e with DQ0 => [0] | Q1 | DQ1 => [0; 1] | Q2 | DQ2 => [0; 1; 2] | Q3 | DQ3 => [0; 1; 2; 3] end.
Definition basis_index2 (e : elem) : list (nat * nat) :=
  match e with
  | DQ0 => [(0, 0)]
  | Q1 | DQ1 => [(0, 0); (1, 0); (1, 1); (0, 1)]
  | Q2 | DQ2 => [(0, 0); (1, 0); (1, 1); (0, 1); (2, 0); (1, 2); (2, 1); (0, 2); (2, 2)]
  | Q3 | DQ3 => [(0, 0); (1, 0); (1, 1); (0, 1); (2, 0); (3, 0); (1, 2); (1, 3); (3, 1); (2, 1); (0, 3); (0, 2);
                 (2, 2); (3, 2); (2, 3); (3, 3)]
  end.

(** reading a list; IndexError *)
Definition at_ {X} (l : list X) (i : nat) : res X := match nth_error l i with Some x => Ok x | None => Err IndexError end.
Definition guard {X} (b : bool) (r : res X) : res X := if b then r else Err AssertionError.

(** phi, fem.py 345-372 *)
Definition phi1 (e : elem) (n : nat) (x : Q) : res Q :=
  guard (n <? n_dofs D1 e) (bind (at_ (basis_index1 e) n) (fun i => bind (at_ (pol e) i) (fun f => Ok (f x)))).
(** the factors for [n] *)
Definition factors (f g : list (Q -> Q)) (e : elem) (n : nat) (p : pt) : res Q :=
  bind (at_ (basis_index2 e) n) (fun ij =>
  bind (at_ f (fst ij)) (fun a => bind (at_ g (snd ij)) (fun b => Ok (a (fst p) * b (snd p))%Q))).
Definition phi2 (e : elem) (n : nat) (p : pt) : res Q := guard (n <? n_dofs D2 e) (factors (pol e) (pol e) e n p).
(** dphi, fem.py 375-413 *)
Definition dphi1 (e : elem) (n : nat) (x : Q) : res Q :=
  guard (n <? n_dofs D1 e) (bind (at_ (basis_index1 e) n) (fun i => bind (at_ (pol_x e) i) (fun f => Ok (f x)))).
Definition dphi2 (e : elem) (n : nat) (p : pt) (var : nat) : res Q :=
  guard (n <? n_dofs D2 e) (guard (var <? 2)
    (if var =? 0 then factors (pol_x e) (pol e) e n p else factors (pol e) (pol_x e) e n p)).
(** d2phi, fem.py 416-466; other values of var return None, which shape cannot
    store: TypeError *)
Definition d2phi1 (e : elem) (n : nat) (x : Q) : res Q :=
  guard (n <? n_dofs D1 e) (bind (at_ (basis_index1 e) n) (fun i => bind (at_ (pol_xx e) i) (fun f => Ok (f x)))).
Definition d2phi2 (e : elem) (n : nat) (p : pt) (var : nat * nat) : res Q :=
  guard (n <? n_dofs D2 e)
    (match var with
     | (0, 0) => factors (pol_xx e) (pol e) e n p
     | (0, 1) | (1, 0) => factors (pol_x e) (pol_x e) e n p
     | (1, 1) => factors (pol e) (pol_xx e) e n p
     | _ => Err TypeError
     end).

(** ** shape, fem.py 469-686, for one point, one derivative, one local dof;
    [derivatives] are (0,), (1,i), (2,i,j) *)
Inductive deriv := V0 | V1 (i : nat) | V2 (i j : nat).
(** the mapped cell: what shape reads of it *)
Definition unit_b (x : Q) : bool := Qle_bool 0 x && Qle_bool x 1.
(** intervals, 597-606 and 625-628; [cell = None] is the reference element *)
Definition shape1 (e : elem) (n : nat) (x : Q) (der : deriv) (jac_p2r : option Q) (cell : bool) : res Q :=
  guard (unit_b x)
    (match der with
     | V0 => phi1 e n x
     | V1 _ => if cell then match jac_p2r with None => Err AssertionError | Some J => bind (dphi1 e n x) (fun v => Ok (J * v)%Q) end
               else dphi1 e n x
     | V2 _ _ => if cell then match jac_p2r with None => Err AssertionError | Some J => bind (d2phi1 e n x) (fun v => Ok (J * J * v)%Q) end
                 else d2phi1 e n x
     end).
(** entry [i,j] of a Jacobian, 607-622 *)
Definition jent (J : jac) (i j : nat) : Q :=
  match i, j with 0, 0 => j11 J | 0, _ => j12 J | _, 0 => j21 J | _, _ => j22 J end.
(** Hi[i,j,k] of hess_p2r, mesh.py 4097-4104: the second derivatives of s (k=0)
    and t (k=1) *)
Definition hent (H : hess) (i j k : nat) : Q :=
  match k, i, j with
  | 0, 0, 0 => sxx H | 0, 1, 1 => syy H | 0, _, _ => sxy H
  | _, 0, 0 => txx H | _, 1, 1 => tyy H | _, _, _ => txy H
  end.
(** quadrilaterals, 607-622 and 629-673; [rect] is cell.is_rectangle() *)
Definition shape2 (e : elem) (n : nat) (p : pt) (der : deriv) (jac_p2r : option jac) (hess_p2r : option hess) (cell : option bool) : res Q :=
  guard (unit_b (fst p) && unit_b (snd p))
    (match der with
     | V0 => phi2 e n p
     | V1 i =>
       match cell with
       | None => dphi2 e n p i
       | Some rect =>
         match jac_p2r with
         | None => Err AssertionError
         | Some J =>
           if rect then bind (dphi2 e n p i) (fun v => Ok (jent J i i * v)%Q)
           else bind (dphi2 e n p 0) (fun a => bind (dphi2 e n p 1) (fun b => Ok (a * jent J 0 i + b * jent J 1 i)%Q))
         end
       end
     | V2 i j =>
       match cell with
       | None => d2phi2 e n p (i, j)
       | Some rect =>
         match jac_p2r, hess_p2r with
         | Some J, Some H =>
           if rect then bind (d2phi2 e n p (i, j)) (fun v => Ok (jent J i i * jent J j j * v)%Q)
           else
             bind (dphi2 e n p 0) (fun N_s => bind (dphi2 e n p 1) (fun N_t =>
             bind (d2phi2 e n p (0, 0)) (fun N_ss => bind (d2phi2 e n p (0, 1)) (fun N_st =>
             bind (d2phi2 e n p (1, 1)) (fun N_tt =>
             let s_xi := jent J 0 i in let s_xj := jent J 0 j in let t_xi := jent J 1 i in let t_xj := jent J 1 j in
             Ok (N_ss * s_xj * s_xi + N_st * t_xj * s_xi + N_s * hent H i j 0 +
                 N_st * s_xj * t_xi + N_tt * t_xj * t_xi + N_t * hent H i j 1)%Q)))))
         | _, _ => Err AssertionError
         end
       end
     end).

(** ** constraint_coefficients, fem.py 688-716: dictionaries as lists of
    (fine node, coefficients), for the first and the second half.  The function
    of DQ0 reads [x.shape] of a number: AttributeError *)
Definition edge_shapefn_index (e : elem) : list nat := [0] ++ seq 2 (dpe D2 e) ++ [1].
Definition coarse_index (e : elem) : list nat := map (fun r => 2 * r) (seq 0 (dpe D2 e + 2)).
Fixpoint values (f : list (Q -> Q)) (js : list nat) (x : Q) : res (list Q) :=
  match js with
  | [] => Ok []
  | j :: r => bind (at_ f j) (fun g => bind (values f r x) (fun l => Ok (g x :: l)))
  end.
Definition constraint_coefficients (e : elem) : res (list (nat * list Q) * list (nat * list Q)) :=
  match e with DQ0 => Err AttributeError | _ =>
  let m := dpe D2 e + 1 in
  fold_res (fun (acc : list (nat * list Q) * list (nat * list Q)) i =>
    if existsb (Nat.eqb i) (coarse_index e) then Ok acc else
    bind (values (pol e) (edge_shapefn_index e) ((1 # 2) * Qn i / Qn m)%Q) (fun c =>
    let '(a, b) := acc in
    Ok (if i <? m then (a ++ [(i, c)], b)
        else if i =? m then (a ++ [(i, c)], b ++ [(i - m, c)])
        else (a, b ++ [(i - m, c)]))))
    (seq 0 (2 * dpe D2 e + 3)) ([], [])
  end.

(** ** The reference cells.  RVertex objects are numbered in the order of their
    creation; [store] is the list of their coordinates. *)
Section reference.
Context {X : Type} (close : X -> X -> bool).
(** the first (last) vertex in [l] with the coordinates [x] *)
Definition find_first (store : list X) (x : X) (l : list nat) : option nat :=
  find (fun v => match nth_error store v with Some y => close x y | None => false end) l.
Definition find_last (store : list X) (x : X) (l : list nat) : option nat := find_first store x (rev l).
(** an existing vertex at [x] or a new one *)
Definition reuse (found : option nat) (x : X) (store : list X) : nat * list X :=
  match found with Some v => (v, store) | None => (length store, store ++ [x]) end.
(** vertices for the coordinates [xs], each looked up in [l] *)
Fixpoint reuse_all (look : list X -> X -> list nat -> option nat) (l : list nat) (xs : list X) (store : list X) : list nat * list X :=
  match xs with
  | [] => ([], store)
  | x :: r => let (v, s1) := reuse (look store x l) x store in
              let (vs, s2) := reuse_all look l r s1 in (v :: vs, s2)
  end.
(** assign_dof_positions(1), mesh.py 4486-4553 and 4797-4835, for one child:
    [cd] is coarse_dofs, [d0] the dof vertices of level 0 *)
Fixpoint idx_of (v : nat) (l : list nat) : option nat :=
  match l with [] => None | x :: r => if x =? v then Some 0 else option_map S (idx_of v r) end.
Fixpoint level1_child (tn : bool) (d0 : list nat) (vs : list nat) (cd : list nat) (store : list X) : list nat * list nat * list X :=
  match vs with
  | [] => ([], cd, store)
  | v :: r =>
    if tn then
      match idx_of v d0 with
      | Some i =>
        if existsb (Nat.eqb i) cd then
          let '(l, cd', s') := level1_child tn d0 r (remove Nat.eq_dec i cd) store in (v :: l, cd', s')
        else
          let c := match nth_error store v with Some x => [x] | None => [] end in
          let '(l, cd', s') := level1_child tn d0 r cd (store ++ c) in (length store :: l, cd', s')
      | None => let '(l, cd', s') := level1_child tn d0 r cd store in (v :: l, cd', s')
      end
    else let '(l, cd', s') := level1_child tn d0 r cd store in (v :: l, cd', s')
  end.
Fixpoint level1 (tn : bool) (d0 : list nat) (kids : list (list nat)) (cd : list nat) (store : list X) : list (list nat) * list X :=
  match kids with
  | [] => ([], store)
  | vs :: r => let '(l, cd', s') := level1_child tn d0 vs cd store in
               let (ls, s'') := level1 tn d0 r cd' s' in (l :: ls, s'')
  end.
End reference.

(** what the reference cell consists of in the end: coordinates of the vertices,
    dof_vertices[0] and dof_vertices[1][child] *)
Record refcell (X : Type) := mkRef { r_store : list X; r_dofs0 : list nat; r_dofs1 : list (list nat) }.
Arguments mkRef {X}. Arguments r_store {X}. Arguments r_dofs0 {X}. Arguments r_dofs1 {X}.

(** RInterval, mesh.py 4565-4836.  Interior points of (x0,x1), 4679-4701 *)
Definition interior1 (k : nat) (x0 x1 : Q) : list Q := map (fun i => (x0 + Qn (i + 1) * (1 / Qn (k + 1)) * (x1 - x0))%Q) (seq 0 k).
Definition ref1 (e : elem) : refcell Q :=
  let k := dpe D1 e in
  let ends (a b : nat) := if dpv e =? 0 then [] else [a; b] in
  let s0 := [0; 1]%Q in
  let (c, s1) := reuse_all (find_first Qeq_bool) [] (interior1 k 0 1) s0 in
  let d0 := ends 0 1 ++ c in
  (* split, 4607-4668: the head of child 0, then the cell dofs of each child *)
  let (m, s2) := reuse (find_last Qeq_bool s1 (1 # 2) d0) (1 # 2)%Q s1 in
  let (ca, s3) := reuse_all (find_first Qeq_bool) c (interior1 k 0 (1 # 2)) s2 in
  let (cb, s4) := reuse_all (find_first Qeq_bool) c (interior1 k (1 # 2) 1) s3 in
  let (l1, s5) := level1 (torn e) d0 [ends 0 m ++ ca; ends m 1 ++ cb] (seq 0 (n_dofs D1 e)) s4 in
  mkRef s5 d0 l1.

(** RHalfEdge: base, head, dof vertices *)
Record redge := mkRE { re_base : nat; re_head : nat; re_dofs : list nat }.
Definition pclose (a b : pt) : bool := Qeq_bool (fst a) (fst b) && Qeq_bool (snd a) (snd b).
Definition coord (store : list pt) (v : nat) : pt := nth v store (0, 0)%Q.
(** 4221-4239: points on the edge; [par] are the dof vertices of the parent (the
    last match wins) *)
Definition edge_points (k : nat) (a b : pt) : list pt :=
  map (fun i => let t := (Qn (i + 1) * (1 / Qn (k + 1)))%Q in
                (fst a + t * (fst b - fst a), snd a + t * (snd b - snd a))%Q) (seq 0 k).
Definition new_redge (k : nat) (par : list nat) (a b : nat) (store : list pt) : redge * list pt :=
  let (l, s) := reuse_all (find_last pclose) par (edge_points k (coord store a) (coord store b)) store in
  (mkRE a b l, s).
(** make_twin, 4199-4207, 4250-4254: the twin takes the list of the half-edge
    itself and reverses it in place, so both have the reversed list *)
Definition with_twin (h : redge) : redge * redge :=
  (mkRE (re_base h) (re_head h) (rev (re_dofs h)), mkRE (re_head h) (re_base h) (rev (re_dofs h))).
(** RHalfEdge.split, 4264-4284 *)
Definition redge_split (k : nat) (h : redge) (store : list pt) : redge * redge * list pt :=
  let xm := midpoint (coord store (re_base h)) (coord store (re_head h)) in
  let (vm, s1) := reuse (find_last pclose store xm (re_dofs h)) xm store in
  let (c0, s2) := new_redge k (re_dofs h) (re_base h) vm s1 in
  let (c1, s3) := new_redge k (re_dofs h) vm (re_head h) s2 in
  (c0, c1, s3).
(** assign_cell_dof_vertices, 4408-4441; n*n points in the bounding box *)
Definition interior2 (n : nat) (bb : Q * Q * Q * Q) : list pt :=
  let '(x0, x1, y0, y1) := bb in
  flat_map (fun i => map (fun j => (x0 + Qn (j + 1) * (1 / Qn (n + 1)) * (x1 - x0),
                                    y0 + Qn (i + 1) * (1 / Qn (n + 1)) * (y1 - y0))%Q) (seq 0 n)) (seq 0 n).
Definition box (store : list pt) (vs : list nat) : Q * Q * Q * Q :=
  match map (coord store) vs with [a; b; c; d] => bounding_box (a, b, c, d) | _ => (0, 0, 0, 0)%Q end.
(** the four half-edges of the reference cell, 4306-4318 *)
Fixpoint new_redges (k : nat) (l : list (nat * nat)) (store : list pt) : list redge * list pt :=
  match l with
  | [] => ([], store)
  | (a, b) :: r => let (h, s1) := new_redge k [] a b store in let (hs, s2) := new_redges k r s1 in (h :: hs, s2)
  end.
(** the first loop of split, 4367-4383: for every half-edge its two halves and
    the half-edges (up, down) to and from the centre *)
Fixpoint split_loop (k vm : nat) (hs : list redge) (store : list pt) : list (redge * redge * (redge * redge)) * list pt :=
  match hs with
  | [] => ([], store)
  | h :: r =>
    let '(c0, c1, s1) := redge_split k h store in
    let (up, s2) := new_redge k [] (re_head c0) vm s1 in
    let (l, s3) := split_loop k vm r s2 in
    ((c0, c1, with_twin up) :: l, s3)
  end.
(** the cell dofs of the children, in turn *)
Fixpoint kids_cells (n : nat) (c : list nat) (kids : list (list redge)) (store : list pt) : list (list nat) * list pt :=
  match kids with
  | [] => ([], store)
  | hs :: r => let (l, s1) := reuse_all (find_first pclose) c (interior2 n (box store (map re_base hs))) store in
               let (ls, s2) := kids_cells n c r s1 in (l :: ls, s2)
  end.
(** RQuadCell, 4285-4564; [rq_edges]: the half-edges with their two halves *)
Record refquad := mkRQ { rq_cell : refcell pt; rq_edges : list (redge * redge * redge) }.
Definition ref2_full (e : elem) : refquad :=
  let k := dpe D2 e in
  let n := Nat.sqrt (dpc D2 e) in
  let corners (vs : list nat) := if dpv e =? 0 then [] else vs in
  let s0 := [(0, 0); (1, 0); (1, 1); (0, 1)]%Q in
  let (hs, s1) := new_redges k [(0, 1); (1, 2); (2, 3); (3, 0)] s0 in
  let (c, s2) := reuse_all (find_first pclose) [] (interior2 n (box s1 [0; 1; 2; 3])) s1 in
  let d0 := corners [0; 1; 2; 3] ++ flat_map re_dofs hs ++ c in
  let xm := (1 # 2, 1 # 2)%Q in
  let (vm, s3) := reuse (find_first pclose s2 xm d0) xm s2 in
  let (sp, s4) := split_loop k vm hs s3 in
  let dummy := mkRE 0 0 [] in
  let get i := nth (i mod 4) sp (dummy, dummy, (dummy, dummy)) in
  (* 4386-4404 *)
  let kids := map (fun i => rotate i [fst (fst (get i)); fst (snd (get i)); snd (snd (get (i + 3))); snd (fst (get (i + 3)))]) (seq 0 4) in
  let (cs, s5) := kids_cells n c kids s4 in
  let (l1, s6) := level1 (torn e) d0
      (map (fun kc => corners (map re_base (fst kc)) ++ flat_map re_dofs (fst kc) ++ snd kc) (combine kids cs))
      (seq 0 (n_dofs D2 e)) s5 in
  mkRQ (mkRef s6 d0 l1) (map (fun hc => (fst hc, fst (fst (snd hc)), snd (fst (snd hc)))) (combine hs sp)).
Definition ref2 (e : elem) : refcell pt := rq_cell (ref2_full e).

(** reference_nodes, fem.py 327-333 *)
Definition reference_nodes1 (e : elem) : list Q := map (fun v => nth v (r_store (ref1 e)) 0%Q) (r_dofs0 (ref1 e)).
Definition reference_nodes2 (e : elem) : list pt := map (coord (r_store (ref2 e))) (r_dofs0 (ref2 e)).
(** RVertex.get_pos: the last position at which set_pos was called for [v] *)
Definition last_idx (v : nat) (l : list nat) : option nat :=
  match idx_of v (rev l) with Some i => Some (length l - 1 - i) | None => None end.
(** the pairs (get_pos(0), get_pos(1, child)) used by share_dofs_with_children,
    fem.py 1283-1286 *)
Definition inherited {X} (r : refcell X) (child : nat) : list (nat * nat) :=
  flat_map (fun v => match last_idx v (nth child (r_dofs1 r) []), last_idx v (r_dofs0 r) with
                     | Some k, Some j => [(j, k)]
                     | _, _ => [] end) (r_dofs0 r).

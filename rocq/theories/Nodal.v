(** * Functions given by nodal values (src/function.py: Map 11-348, Explicit
    1346-1580, Nodal 1583-2371, Constant 2374-2463)

    Simplifications, used throughout this file:
    - numbers are exact rationals; arrays are rectangular lists of lists; an
      (n_points, n_samples) array is the list of its rows.
    - functions passed by the user act point by point: [f] of an array is the
      array of the values, as Explicit.eval expects.
    - the data array and the lists of rules are values: that they are the very
      objects passed by the user (aliasing) is not modelled.
    - a Basis is its pair of index maps (Basis.v); basis().dofs() is the list
      from which they were built: the mesh is not changed between the
      construction of the Basis and its use.
    - the class Function, 350-1343, is inside of a string literal.  project and
      lift, 2298-2320, do nothing. *)
From Coq Require Import List Arith Bool QArith.
From Verif Require Import Tree Forest Geom SpecGeom Fem Basis Solver.
Import ListNotations.
Open Scope nat_scope.

(** numpy: array[i] where the index -1 (None) is the last row *)
Definition take {X} (l : list X) (i : option nat) : res X :=
  match i with
  | Some k => at_ l k
  | None => match l with [] => Err IndexError | x :: r => Ok (last r x) end
  end.

(** ** Explicit *)
Section Explicit.
Context {P K : Type}.
(** set_rules(f, parameters), 1471-1519; [f]: the list of functions, [ps]: the
    list of parameters (one function or one dictionary is a list of length 1).
    self.__f and self.__parameters are zipped: eval reads the same positions *)
Definition set_rules (f : list (K -> P -> Q)) (ps : list K) : res (list (K -> P -> Q) * list K) :=
  if (1 <? length f) && (1 <? length ps) then if length f =? length ps then Ok (f, ps) else Err AssertionError
  else if 1 <? length f then bind (at_ ps 0) (fun p0 => Ok (f, map (fun _ => p0) f))
  else if 1 <? length ps then bind (at_ f 0) (fun f0 => Ok (map (fun _ => f0) ps, ps))
  else Ok (f, ps).
(** set_rules(f, parameters, pos), 1460-1468: self.n_sample() does not exist *)
Definition set_rules_pos (f : K -> P -> Q) (p : K) (pos : nat) (r : list (K -> P -> Q) * list K) : res (list (K -> P -> Q) * list K) :=
  Err AttributeError.
(** add_rule, 1522-1544 *)
Definition add_rule (f : K -> P -> Q) (p : K) (r : list (K -> P -> Q) * list K) : list (K -> P -> Q) * list K :=
  (fst r ++ [f], snd r ++ [p]).
(** set_parameters, 1413-1432 *)
Definition set_parameters (p : K) (pos : option nat) (r : list (K -> P -> Q) * list K) : res (list (K -> P -> Q) * list K) :=
  match pos with
  | None => Ok (fst r, map (fun _ => p) (snd r))
  | Some k => if k <? length (fst r) then if k <? length (snd r) then Ok (fst r, set_nth k p (snd r)) else Err IndexError
              else Err AssertionError
  end.
(** eval, 1547-1580 *)
Definition explicit_eval (r : list (K -> P -> Q) * list K) (xs : list P) : res (list (list Q)) :=
  bind (map_res (fun i => bind (at_ (fst r) i) (fun f => bind (at_ (snd r) i) (fun p => Ok (f p))))
                (seq 0 (if 1 <? length (fst r) then length (fst r) else 1)))
       (fun fs => Ok (map (fun x => map (fun f => f x) fs) xs)).
End Explicit.

(** ** Constant.eval, 2443-2463 *)
Definition constant_eval {P} (data : list Q) (xs : list P) : list (list Q) := map (fun _ => data) xs.

(** ** Nodal *)
Definition bmaps := (list (option nat) * list nat)%type.
Record nodal (D : Type) := mkNodal { nd_basis : bmaps; nd_data : list D }.
Arguments mkNodal {D}. Arguments nd_basis {D}. Arguments nd_data {D}.

(** set_data(data), 1650-1668: [data] is indexed by dof (and by dof again if
    there are two variables) *)
Definition nodal_of_data {D} (B : bmaps) (data : list D) : res (nodal D) :=
  if length data =? length (snd B) then Ok (mkNodal B data) else Err AssertionError.

(** n_samples, 1632-1636: the last axis *)
Definition n_samples (data : list (list Q)) : nat := length (nth 0 data []).
Definition n_samples2 (data : list (list (list Q))) : nat := n_samples (nth 0 data []).

(** set_data(f), 1670-1709, one variable: [x] are the dof vertices *)
Definition nodal_of_function {P} (B : bmaps) (fs : list (P -> Q)) (x : list P) : nodal (list Q) :=
  mkNodal B (map (fun y => map (fun f => f y) fs) x).
(** two variables, 1697-1709: cols, rows = np.mgrid; x1 = x[rows], x2 = x[cols]:
    row [a], column [b] is f(x_b, x_a) *)
Definition nodal_of_function2 {P} (B : bmaps) (fs : list (P -> P -> Q)) (x : list P) : nodal (list (list Q)) :=
  mkNodal B (map (fun xa => map (fun xb => map (fun f => f xb xa) fs) x) x).

(** modify_data(data, i_sample, dofs), 1726-1748, for a list of dofs; one value is
    taken for all of them *)
Definition modify_data (vals : list Q) (i : nat) (ds : list nat) (f : nodal (list Q)) : res (nodal (list Q)) :=
  bind (map_res (basis_d2i (nd_basis f)) ds) (fun idx =>
  let vals := match vals with [y] => map (fun _ => y) ds | _ => vals end in
  if negb (length vals =? length ds) then Err ValueError
  else if negb (i <? n_samples (nd_data f)) then Err IndexError
  else bind (fold_res (fun dat kv =>
               bind (take dat (fst kv)) (fun row =>
               Ok (set_nth (match fst kv with Some k => k | None => length dat - 1 end) (set_nth i (snd kv) row) dat)))
             (combine idx vals) (nd_data f))
       (fun dat => Ok (mkNodal (nd_basis f) dat))).

(** add_samples, 1751-1782: np.append(.., axis=1); [n] is
    dofhandler().n_dofs(subforest_flag) *)
Definition add_samples (n : nat) (new : list (list Q)) (f : nodal (list Q)) : res (nodal (list Q)) :=
  if negb (length new =? n) then Err AssertionError
  else if negb (length new =? length (nd_data f)) then Err ValueError
  else nodal_of_data (nd_basis f) (map (fun ab => fst ab ++ snd ab) (combine (nd_data f) new)).

(** eval(phi, dofs), 1852-1944, one variable: contract the rows of phi with the
    data of the dofs *)
Definition contract (ns : nat) (row : list Q) (loc : list (list Q)) : list Q :=
  map (fun t => sumQ (map (fun cv => fst cv * nth t (snd cv) 0)%Q (combine row loc))) (seq 0 ns).
Definition eval_phi (f : nodal (list Q)) (phi : list (list Q)) (ds : list nat) : res (list (list Q)) :=
  bind (map_res (basis_d2i (nd_basis f)) ds) (fun idx =>
  bind (map_res (take (nd_data f)) idx) (fun loc =>
  map_res (fun row => if length row =? length loc then Ok (contract (n_samples (nd_data f)) row loc) else Err ValueError) phi)).
(** two variables; P = phi[0] * phi[1] needs the same number of points *)
Definition contract2 (ns : nat) (r1 r2 : list Q) (loc : list (list (list Q))) : list Q :=
  map (fun t => sumQ (map (fun av => fst av * sumQ (map (fun bv => fst bv * nth t (snd bv) 0) (combine r2 (snd av))))%Q
                          (combine r1 loc))) (seq 0 ns).
Definition eval_phi2 (f : nodal (list (list Q))) (phi1 phi2 : list (list Q)) (d1 d2 : list nat) : res (list (list Q)) :=
  bind (map_res (basis_d2i (nd_basis f)) d1) (fun i1 =>
  bind (map_res (basis_d2i (nd_basis f)) d2) (fun i2 =>
  bind (map_res (take (nd_data f)) i1) (fun rows =>
  bind (map_res (fun r => map_res (take r) i2) rows) (fun loc =>
  if negb (length phi1 =? length phi2) then Err ValueError else
  map_res (fun rr => if (length (fst rr) =? length i1) && (length (snd rr) =? length i2)
                     then Ok (contract2 (n_samples2 (nd_data f)) (fst rr) (snd rr) loc) else Err ValueError)
          (combine phi1 phi2))))).

(** ** eval(x), 1945-2066 *)
Section Eval.
Context {P : Type}.
(** what is read of the mesh, the dof handler and the element:
    mesh.bin_points(x, subforest_flag) or cell.bin_points(x, subforest_flag);
    get_cell_dofs(cell); the row of element.shape for one point of the cell;
    list(set(..)), whose order is not specified *)
Variable bins_of : list P -> res binned.
Variable cell_dofs : path -> option (list nat).
Variable shapes : path -> P -> res (list Q).
Variable set_list : list nat -> list nat.

(** 2013-2041: one bin *)
Record bin_rows := mkLoc { lc_pts : list nat; lc_dofs : list nat; lc_phi : list (list Q) }.
Definition locate (xs : list P) (b : path * list nat) : res bin_rows :=
  match cell_dofs (fst b) with
  | None => Err TypeError
  | Some ds => bind (map_res (fun i => bind (at_ xs i) (shapes (fst b))) (snd b)) (fun phi => Ok (mkLoc (snd b) ds phi))
  end.
(** 2053-2054: Phi[np.ix_(i_pt, i_col)] = phi *)
Definition put_row (cols : list nat) (vals : list Q) (row : list Q) : list Q :=
  fold_left (fun r cv => set_nth (fst cv) (snd cv) r) (combine cols vals) row.
Definition put_block (pts cols : list nat) (phi : list (list Q)) (M : list (list Q)) : list (list Q) :=
  fold_left (fun M iv => set_nth (fst iv) (put_row cols (snd iv) (nth (fst iv) M [])) M) (combine pts phi) M.
Definition col_of (u : list nat) (d : nat) : res nat := match idx_of d u with Some k => Ok k | None => Err ValueError end.
Definition put_bin (u : list nat) (M : list (list Q)) (l : bin_rows) : res (list (list Q)) :=
  bind (map_res (col_of u) (lc_dofs l)) (fun cols =>
  if forallb (fun r => length r =? length cols) (lc_phi l) then Ok (put_block (lc_pts l) cols (lc_phi l) M) else Err ValueError).
(** 2002-2058: Phi and the unique dofs, for one variable *)
Definition global_phi (xs : list P) : res (list (list Q) * list nat) :=
  bind (bins_of xs) (fun bs =>
  bind (map_res (locate xs) bs) (fun ls =>
  let u := set_list (flat_map lc_dofs ls) in
  bind (fold_res (put_bin u) ls (repeat (repeat 0%Q (length u)) (length xs))) (fun M => Ok (M, u)))).
(** 2059-2066 *)
Definition eval_x (f : nodal (list Q)) (xs : list P) : res (list (list Q)) :=
  bind (global_phi xs) (fun Mu => eval_phi f (fst Mu) (snd Mu)).
End Eval.

(** two variables: bins, shapes may differ (cells, derivatives); parse_x,
    222-263, asserts that there are as many points *)
Definition eval_x2 {P} (b1 b2 : list P -> res binned) (cell_dofs : path -> option (list nat)) (s1 s2 : path -> P -> res (list Q))
  (set_list : list nat -> list nat) (f : nodal (list (list Q))) (xs ys : list P) : res (list (list Q)) :=
  if negb (length xs =? length ys) then Err AssertionError else
  bind (global_phi b1 cell_dofs s1 set_list xs) (fun M1 =>
  bind (global_phi b2 cell_dofs s2 set_list ys) (fun M2 => eval_phi2 f (fst M1) (fst M2) (snd M1) (snd M2))).

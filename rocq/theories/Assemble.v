(** * Assembly and solution (src/assembler.py: Assembler 2313-3760, AssembledForm 3903-4420)

    Simplifications: deterministic forms (one sample), so a value is one number;
    what Form.eval returns on a cell (local vector or matrix) is an argument;
    sparse matrices are dense.  Parallel lists (rows, cols, vals), always changed
    together, are one list of tuples.  The cellwise lists are kept in reverse: the
    head of the list is the end that pop() takes.  Dictionaries are lists of
    pairs with distinct keys; cells are identified by numbers. *)
From Coq Require Import List Arith Bool QArith.
From Verif Require Import Tree Geom Dof Solver Basis.
Import ListNotations.
Open Scope Q_scope.

Definition lookup {V} (k : nat) (d : list (nat * V)) : option V :=
  option_map snd (find (fun p => (fst p =? k)%nat) d).
(** d[k] = v *)
Definition store {V} (k : nat) (v : V) (d : list (nat * V)) : list (nat * V) :=
  match lookup k d with
  | Some _ => map (fun p => if (fst p =? k)%nat then (k, v) else p) d
  | None => d ++ [(k, v)]
  end.
Definition remove_key {V} (k : nat) (d : list (nat * V)) : list (nat * V) :=
  filter (fun p => negb (fst p =? k)%nat) d.

(** A form evaluated on a cell: what Form.eval returns (1222-1432), with the dofs
    that assemble passes to update_cellwise (2388-2415) *)
Inductive local :=
| Constant (v : Q)
| Linear (test : list nat) (v : list Q)
| Bilinear (test trial : list nat) (M : mat).

(** AssembledForm of dimension 0, 1, 2 (3907-3936): cellwise data, aggregate data,
    the term of the Dirichlet columns (self.__bnd) *)
Record aform0 := mkA0 { w0 : list (nat * list Q); g0 : list Q }.
Record aform1 := mkA1 { w1 : list (nat * list (nat * Q)); g1 : list (nat * Q) }.
Record aform2 := mkA2 { w2 : list (nat * list (nat * nat * Q)); g2 : list (nat * nat * Q); b2 : list (nat * Q) }.

(** AssembledForm.update_cellwise, 4049-4111.  dim 1: extend by (dofs, vals). *)
Definition update1 (cell : nat) (test : list nat) (v : list Q) (a : aform1) : aform1 :=
  let old := match lookup cell (w1 a) with Some l => l | None => [] end in
  mkA1 (store cell (rev_append (combine test v) old) (w1 a)) (g1 a).
Definition update0 (cell : nat) (v : Q) (a : aform0) : aform0 :=
  let old := match lookup cell (w0 a) with Some l => l | None => [] end in
  mkA0 (store cell (v :: old) (w0 a)) (g0 a).
(** dim 2, 4069-4087: R, C = meshgrid(test, trial) raveled; the local matrix
    reshaped column by column (order='F'), ValueError if it has another size *)
Definition meshgrid_rows (test trial : list nat) : list nat := concat (map (fun _ => test) trial).
Definition meshgrid_cols (test trial : list nat) : list nat := concat (map (fun c => repeat c (length test)) trial).
Definition reshape_F (r c : nat) (M : mat) : list Q :=
  concat (map (fun j => map (fun i => entry M i j) (seq 0 r)) (seq 0 c)).
Definition update2 (cell : nat) (test trial : list nat) (M : mat) (a : aform2) : res aform2 :=
  if shape (length test) (length trial) M then
    let t := combine (combine (meshgrid_rows test trial) (meshgrid_cols test trial))
                     (reshape_F (length test) (length trial) M) in
    let old := match lookup cell (w2 a) with Some l => l | None => [] end in
    Ok (mkA2 (store cell (rev_append t old) (w2 a)) (g2 a) (b2 a))
  else Err ValueError.

Section Distribute.
(** hng[r] zipped: supporting dofs and coefficients; dir_bc: dof -> value *)
Context (hng : list (nat * list (nat * Q))) (dir : list (nat * Q)).

(** The loop of AssembledForm.distribute for a linear form, 4211-4231 *)
Fixpoint loop1 (fuel : nat) (st : list (nat * Q)) (out : list (nat * Q)) : res (list (nat * Q)) :=
  match st with
  | [] => Ok out
  | (r, v) :: st' =>
    match fuel with
    | O => Err OutOfFuel
    | S k =>
      match lookup r hng with
      | Some supp => loop1 k (rev_append (map (fun p => (fst p, snd p * v)) supp) st') out
      | None =>
        match lookup r dir with
        | None => loop1 k st' (out ++ [(r, v)])
        | Some _ => loop1 k st' out
        end
      end
    end
  end.

(** The loop for a bilinear form, 4239-4287 *)
Fixpoint loop2 (fuel : nat) (st : list (nat * nat * Q)) (out : list (nat * nat * Q)) (bnd : list (nat * Q))
    : res (list (nat * nat * Q) * list (nat * Q)) :=
  match st with
  | [] => Ok (out, bnd)
  | (r, c, v) :: st' =>
    match fuel with
    | O => Err OutOfFuel
    | S k =>
      match lookup r hng with
      | Some supp => loop2 k (rev_append (map (fun p => (fst p, c, v * snd p)) supp) st') out bnd
      | None =>
        match lookup r dir with
        | Some _ => loop2 k st' out bnd
        | None =>
          match lookup c hng with
          | Some supp => loop2 k (rev_append (map (fun p => (r, fst p, v * snd p)) supp) st') out bnd
          | None =>
            match lookup c dir with
            | Some g => loop2 k st' out (bnd ++ [(r, v * g)])
            | None => loop2 k st' (out ++ [(r, c, v)]) bnd
            end
          end
        end
      end
    end
  end.

(** AssembledForm.distribute(cell), 4195-4290, with clear_cellwise_data=False:
    the copy of the cellwise dictionary is shallow, so the lists of the cell are
    emptied by pop().  A constant form is not popped (4205-4209). *)
Definition distribute0 (cell : nat) (a : aform0) : res aform0 :=
  match lookup cell (w0 a) with
  | None => Err KeyError
  | Some l => Ok (mkA0 (w0 a) (g0 a ++ rev l))
  end.
Definition distribute1 (fuel cell : nat) (a : aform1) : res aform1 :=
  match lookup cell (w1 a) with
  | None => Err KeyError
  | Some l => bind (loop1 fuel l (g1 a)) (fun g => Ok (mkA1 (store cell [] (w1 a)) g))
  end.
Definition distribute2 (fuel cell : nat) (a : aform2) : res aform2 :=
  match lookup cell (w2 a) with
  | None => Err KeyError
  | Some l => bind (loop2 fuel l (g2 a) (b2 a)) (fun gb => Ok (mkA2 (store cell [] (w2 a)) (fst gb) (snd gb)))
  end.
End Distribute.

(** One problem: its assembled forms (None if there is no form of the dimension) *)
Record aforms := mkAF { af0 : option aform0; af1 : option aform1; af2 : option aform2 }.
(** Assembler.__init__, 2136-2149 *)
Definition init_forms (dims : list nat) : aforms :=
  mkAF (if existsb (Nat.eqb 0) dims then Some (mkA0 [] []) else None)
       (if existsb (Nat.eqb 1) dims then Some (mkA1 [] []) else None)
       (if existsb (Nat.eqb 2) dims then Some (mkA2 [] [] []) else None).

(** assemble, 2373-2415: one form on a cell *)
Definition update (cell : nat) (af : aforms) (f : local) : res aforms :=
  match f with
  | Constant v => match af0 af with Some a => Ok (mkAF (Some (update0 cell v a)) (af1 af) (af2 af)) | None => Err AttributeError end
  | Linear t v => match af1 af with Some a => Ok (mkAF (af0 af) (Some (update1 cell t v a)) (af2 af)) | None => Err AttributeError end
  | Bilinear t u M => match af2 af with
      | Some a => bind (update2 cell t u M a) (fun a' => Ok (mkAF (af0 af) (af1 af) (Some a')))
      | None => Err AttributeError end
  end.
Definition opt_map_res {X} (f : X -> res X) (o : option X) : res (option X) :=
  match o with None => Ok None | Some x => bind (f x) (fun y => Ok (Some y)) end.
(** assemble, 2453-2477: the aggregation of a cell; [keep]: keep_cellwise_data *)
Definition aggregate hng dir (fuel : nat) (keep : bool) (cell : nat) (af : aforms) : res aforms :=
  bind (opt_map_res (distribute0 cell) (af0 af)) (fun a0 =>
  bind (opt_map_res (distribute1 hng dir fuel cell) (af1 af)) (fun a1 =>
  bind (opt_map_res (distribute2 hng dir fuel cell) (af2 af)) (fun a2 =>
  Ok (if keep then mkAF a0 a1 a2 else
      mkAF (option_map (fun a => mkA0 (remove_key cell (w0 a)) (g0 a)) a0)
           (option_map (fun a => mkA1 (remove_key cell (w1 a)) (g1 a)) a1)
           (option_map (fun a => mkA2 (remove_key cell (w2 a)) (g2 a) (b2 a)) a2))))).
(** assemble, 2361-2477, before the consolidation: the loop over the cells, each
    with the forms evaluated on it *)
Definition assemble_cell hng dir fuel keep (af : aforms) (c : nat * list local) : res aforms :=
  bind (fold_res (fun af f => update (fst c) af f) (snd c) af) (aggregate hng dir fuel keep (fst c)).
Definition assemble_cells hng dir fuel keep (cells : list (nat * list local)) (af : aforms) : res aforms :=
  fold_res (fun af c => assemble_cell hng dir fuel keep af c) cells af.

(** The arrays that consolidate stores.  [order l] is list(set(l)), the order in
    which Python lists the set. *)
Record arrays0 := mkR0 { c_val : Q }.
Record arrays1 := mkR1 { v_dofs : list nat; v_vec : list Q }.
Record arrays2 := mkR2 { m_rows : list nat; m_cols : list nat; m_mat : mat; m_x0 : option (list Q) }.

(** np.bincount(idx, vals, n) *)
Definition bincount (n : nat) (l : list (nat * Q)) : list Q :=
  map (fun i => fold_right Qplus 0 (map snd (filter (fun p => (fst p =? i)%nat) l))) (seq 0 n).
(** dof2idx[dofs] *)
Definition dof_index (d2i : list nat) (d : nat) : res nat :=
  match nth_error d2i d with Some k => Ok k | None => Err IndexError end.

Section Consolidate.
Context (order : list nat -> list nat).
(** consolidate, 4345-4398.  An empty list of dofs: udofs[i][-1] is an IndexError. *)
Definition consolidate0 (a : aform0) : arrays0 := mkR0 (fold_right Qplus 0 (g0 a)).
Definition consolidate1 (a : aform1) : res arrays1 :=
  let ud := order (map fst (g1 a)) in
  bind (make_d2e ud) (fun d2i =>
  bind (map_res (fun p => bind (dof_index d2i (fst p)) (fun k => Ok (k, snd p))) (g1 a)) (fun l =>
  Ok (mkR1 ud (bincount (length ud) l)))).
Definition consolidate2 (a : aform2) : res arrays2 :=
  let ur := order (map (fun t => fst (fst t)) (g2 a)) in
  let uc := order (map (fun t => snd (fst t)) (g2 a)) in
  bind (make_d2e ur) (fun r2i =>
  bind (make_d2e uc) (fun c2i =>
  bind (map_res (fun p => bind (dof_index r2i (fst p)) (fun k => Ok (k, snd p))) (b2 a)) (fun x0 =>
  bind (map_res (fun t => bind (dof_index r2i (fst (fst t))) (fun i =>
                          bind (dof_index c2i (snd (fst t))) (fun j => Ok (i, j, snd t)))) (g2 a)) (fun l =>
  Ok (mkR2 ur uc (tab (length ur) (length uc) (fun i j => coo_entry l i j))
        (match x0 with [] => None | _ => Some (bincount (length ur) x0) end)))))).

Record arrays := mkR { r0 : option arrays0; r1 : option arrays1; r2 : option arrays2 }.
Definition opt_res {X Y} (f : X -> res Y) (o : option X) : res (option Y) :=
  match o with None => Ok None | Some x => bind (f x) (fun y => Ok (Some y)) end.
(** assemble, 2313-2486: the loop over the cells and the consolidation; the
    assembled forms are kept for later calls *)
Definition assemble hng dir fuel keep (cells : list (nat * list local)) (af : aforms) : res (aforms * arrays) :=
  bind (assemble_cells hng dir fuel keep cells af) (fun af' =>
  bind (opt_res consolidate1 (af1 af')) (fun a1 =>
  bind (opt_res consolidate2 (af2 af')) (fun a2 =>
  Ok (af', mkR (option_map consolidate0 (af0 af')) a1 a2)))).
End Consolidate.

(** u[dofs] = vals *)
Definition put_all (u : list Q) (l : list (nat * Q)) : res (list Q) :=
  fold_res (fun u p => if (fst p <? length u)%nat then Ok (set_nth (fst p) (snd p) u) else Err IndexError) l u.
(** test.d2i of one dof: -1 cannot be an index of coo_matrix *)
Definition d2i_index (bs : list (option nat) * list nat) (d : nat) : res nat :=
  bind (basis_d2i bs d) (fun o => match o with Some k => Ok k | None => Err ValueError end).
(** Assembler.hanging_node_matrix, 3680-3708, as a list of triplets *)
Definition hanging_node_matrix (bs : list (option nat) * list nat) (hng : list (nat * list (nat * Q))) : res (list (nat * nat * Q)) :=
  bind (map_res (fun h => map_res (fun p =>
           bind (d2i_index bs (fst h)) (fun r => bind (d2i_index bs (fst p)) (fun c => Ok (r, c, snd p)))) (snd h)) hng)
       (fun l => Ok (concat l)).
(** Assembler.solve, 3711-3775, after assemble; [basis]: the dofs of the basis in
    the order of the Basis object (fem.py 921-931); [solver]: scipy's spsolve.
    Without a Dirichlet term the list x0 is empty and x0[0] is an IndexError. *)
Definition solve (solver : mat -> nat -> mat -> option mat) (basis : list nat)
    (hng : list (nat * list (nat * Q))) (dir : list (nat * Q)) (a : arrays) : res (list Q) :=
  match r1 a, r2 a with
  | Some b, Some A =>
    match m_x0 A with
    | None => Err IndexError
    | Some x0 =>
      if negb ((length (v_vec b) =? length x0)%nat && (length (m_rows A) =? length (m_cols A))%nat) then Err ValueError else
      let n := length (m_rows A) in
      match solver (m_mat A) 1%nat (map (fun i => [nth i (v_vec b) 0 - nth i x0 0]) (seq 0 n)) with
      | None => Err GenericException
      | Some y =>
        bind (put_all (repeat 0 (length basis)) (combine (m_rows A) (map (fun i => entry y i 0) (seq 0 n)))) (fun u1 =>
        bind (put_all u1 dir) (fun u2 =>
        bind (basis_init basis) (fun bs =>
        bind (hanging_node_matrix bs hng) (fun C =>
        Ok (map (fun i => nth i u2 0 + sum (length basis) (fun j => coo_entry C i j * nth j u2 0)) (seq 0 (length basis)))))))
      end
    end
  | _, _ => Err AttributeError
  end.

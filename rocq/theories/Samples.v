(** * Assembly of sampled forms (src/assembler.py: AssembledForm.add_form 3988-4046, update_cellwise
    4049-4111, distribute 4114-4290, consolidate 4300-4428, Assembler.get_matrix, get_vector,
    get_scalar 2975-3052, solve 3711-3775)

    As [Assemble.v], but a value is a row with one number per sample.  A form whose kernel
    has one sample gives rows of length one.  Simplification: every cell has a region
    for the constant forms (Form.eval gives 1 x n_samples). *)
From Coq Require Import List Arith Bool QArith.
From Verif Require Import Tree Geom Dof Solver Basis Assemble.
Import ListNotations.
Open Scope Q_scope.

Notation row := (list Q).
(** What Form.eval returns: a matrix (n_test, n_trial, n_samples) is the list of its samples *)
Inductive slocal :=
| SConstant (v : row)
| SLinear (test : list nat) (v : list row)
| SBilinear (test trial : list nat) (M : list mat).
Record sform0 := mkS0 { sw0 : list (nat * list row); sg0 : list row }.
Record sform1 := mkS1 { sw1 : list (nat * list (nat * row)); sg1 : list (nat * row) }.
Record sform2 := mkS2 { sw2 : list (nat * list (nat * nat * row)); sg2 : list (nat * nat * row); sb2 : list (nat * row) }.
Record sforms := mkSF { sf0 : option sform0; sf1 : option sform1; sf2 : option sform2 }.

(** add_form, 4028-4046: the sample size of the aggregate form *)
Definition add_size (n : nat) (form : nat) : res nat :=
  if (1 <? form)%nat then if (n =? 1)%nat then Ok form else if (n =? form)%nat then Ok n else Err AssertionError
  else Ok n.
(** the forms of a problem, with dimension and sample size (2136-2149, 3923-3936) *)
Definition form_size (k : nat) (forms : list (nat * nat)) : res nat :=
  fold_res (fun n f => if (fst f =? k)%nat then add_size n (snd f) else Ok n) forms 1%nat.
Definition init_sampled (forms : list (nat * nat)) : sforms :=
  let has k := existsb (fun f => (fst f =? k)%nat) forms in
  mkSF (if has 0%nat then Some (mkS0 [] []) else None)
       (if has 1%nat then Some (mkS1 [] []) else None)
       (if has 2%nat then Some (mkS2 [] [] []) else None).

(** update_cellwise *)
Definition supdate0 (cell : nat) (v : row) (a : sform0) : sform0 :=
  let old := match lookup cell (sw0 a) with Some l => l | None => [] end in
  mkS0 (store cell (v :: old) (sw0 a)) (sg0 a).
Definition supdate1 (cell : nat) (test : list nat) (v : list row) (a : sform1) : sform1 :=
  let old := match lookup cell (sw1 a) with Some l => l | None => [] end in
  mkS1 (store cell (rev_append (combine test v) old) (sw1 a)) (sg1 a).
(** 4079-4087: tile one sample n_samples times, reshape to (n_entries, n_samples) *)
Definition tiled (n : nat) (M : list mat) : list mat :=
  if (1 <? n)%nat then match M with [A] => repeat A n | _ => M end else M.
Definition sreshape (r c : nat) (M : list mat) : list row :=
  concat (map (fun j => map (fun i => map (fun A => entry A i j) M) (seq 0 r)) (seq 0 c)).
Definition supdate2 (n cell : nat) (test trial : list nat) (M : list mat) (a : sform2) : res sform2 :=
  let M' := tiled n M in
  if (length M' =? n)%nat && forallb (shape (length test) (length trial)) M' then
    let t := combine (combine (meshgrid_rows test trial) (meshgrid_cols test trial)) (sreshape (length test) (length trial) M') in
    let old := match lookup cell (sw2 a) with Some l => l | None => [] end in
    Ok (mkS2 (store cell (rev_append t old) (sw2 a)) (sg2 a) (sb2 a))
  else Err ValueError.

(** products of arrays: coef * v, and v * dir_bc[c] with numpy's broadcasting *)
Definition rscale (c : Q) (v : row) : row := map (fun x => c * x) v.
Definition rscale' (v : row) (c : Q) : row := map (fun x => x * c) v.
Definition broadcast (v g : row) : res row :=
  if (length v =? length g)%nat then Ok (map (fun p => fst p * snd p) (combine v g))
  else match g with [c] => Ok (rscale' v c) | _ => match v with [c] => Ok (rscale c g) | _ => Err ValueError end end.

Section Distribute.
Context (hng : list (nat * list (nat * Q))) (dir : list (nat * row)).
Fixpoint sloop1 (fuel : nat) (st out : list (nat * row)) : res (list (nat * row)) :=
  match st with
  | [] => Ok out
  | (r, v) :: st' =>
    match fuel with
    | O => Err OutOfFuel
    | S k =>
      match lookup r hng with
      | Some supp => sloop1 k (rev_append (map (fun p => (fst p, rscale (snd p) v)) supp) st') out
      | None =>
        match lookup r dir with
        | None => sloop1 k st' (out ++ [(r, v)])
        | Some _ => sloop1 k st' out
        end
      end
    end
  end.
Fixpoint sloop2 (fuel : nat) (st out : list (nat * nat * row)) (bnd : list (nat * row)) : res (list (nat * nat * row) * list (nat * row)) :=
  match st with
  | [] => Ok (out, bnd)
  | (r, c, v) :: st' =>
    match fuel with
    | O => Err OutOfFuel
    | S k =>
      match lookup r hng with
      | Some supp => sloop2 k (rev_append (map (fun p => (fst p, c, rscale' v (snd p))) supp) st') out bnd
      | None =>
        match lookup r dir with
        | Some _ => sloop2 k st' out bnd
        | None =>
          match lookup c hng with
          | Some supp => sloop2 k (rev_append (map (fun p => (r, fst p, rscale' v (snd p))) supp) st') out bnd
          | None =>
            match lookup c dir with
            | Some g => bind (broadcast v g) (fun vg => sloop2 k st' out (bnd ++ [(r, vg)]))
            | None => sloop2 k st' (out ++ [(r, c, v)]) bnd
            end
          end
        end
      end
    end
  end.
Definition sdistribute0 (cell : nat) (a : sform0) : res sform0 :=
  match lookup cell (sw0 a) with None => Err KeyError | Some l => Ok (mkS0 (sw0 a) (sg0 a ++ rev l)) end.
Definition sdistribute1 (fuel cell : nat) (a : sform1) : res sform1 :=
  match lookup cell (sw1 a) with
  | None => Err KeyError
  | Some l => bind (sloop1 fuel l (sg1 a)) (fun g => Ok (mkS1 (store cell [] (sw1 a)) g))
  end.
Definition sdistribute2 (fuel cell : nat) (a : sform2) : res sform2 :=
  match lookup cell (sw2 a) with
  | None => Err KeyError
  | Some l => bind (sloop2 fuel l (sg2 a) (sb2 a)) (fun gb => Ok (mkS2 (store cell [] (sw2 a)) (fst gb) (snd gb)))
  end.
End Distribute.

Definition supdate (n2 cell : nat) (af : sforms) (f : slocal) : res sforms :=
  match f with
  | SConstant v => match sf0 af with Some a => Ok (mkSF (Some (supdate0 cell v a)) (sf1 af) (sf2 af)) | None => Err AttributeError end
  | SLinear t v => match sf1 af with Some a => Ok (mkSF (sf0 af) (Some (supdate1 cell t v a)) (sf2 af)) | None => Err AttributeError end
  | SBilinear t u M => match sf2 af with
      | Some a => bind (supdate2 n2 cell t u M a) (fun a' => Ok (mkSF (sf0 af) (sf1 af) (Some a')))
      | None => Err AttributeError end
  end.
Definition saggregate hng dir (fuel : nat) (keep : bool) (cell : nat) (af : sforms) : res sforms :=
  bind (opt_map_res (sdistribute0 cell) (sf0 af)) (fun a0 =>
  bind (opt_map_res (sdistribute1 hng dir fuel cell) (sf1 af)) (fun a1 =>
  bind (opt_map_res (sdistribute2 hng dir fuel cell) (sf2 af)) (fun a2 =>
  Ok (if keep then mkSF a0 a1 a2 else
      mkSF (option_map (fun a => mkS0 (remove_key cell (sw0 a)) (sg0 a)) a0)
           (option_map (fun a => mkS1 (remove_key cell (sw1 a)) (sg1 a)) a1)
           (option_map (fun a => mkS2 (remove_key cell (sw2 a)) (sg2 a) (sb2 a)) a2))))).
Definition sassemble_cell n2 hng dir fuel keep (af : sforms) (c : nat * list slocal) : res sforms :=
  bind (fold_res (fun af f => supdate n2 (fst c) af f) (snd c) af) (saggregate hng dir fuel keep (fst c)).
Definition sassemble_cells n2 hng dir fuel keep (cells : list (nat * list slocal)) (af : sforms) : res sforms :=
  fold_res (fun af c => sassemble_cell n2 hng dir fuel keep af c) cells af.

(** np.array of rows: their lengths must agree *)
Definition np_array (l : list row) : res (list row) :=
  match l with [] => Ok [] | r :: _ => if forallb (fun x => (length x =? length r)%nat) l then Ok l else Err ValueError end.
(** vals[:, i] *)
Definition column (i : nat) (l : list row) : res (list Q) :=
  map_res (fun r => match nth_error r i with Some q => Ok q | None => Err IndexError end) l.

(** the lists of arrays that consolidate stores *)
Record sarr1 := mkT1 { sv_dofs : list nat; sv_vecs : list (list Q) }.
Record sarr2 := mkT2 { sm_rows : list nat; sm_cols : list nat; sm_mats : list mat; sm_x0 : list (list Q) }.
Record sarrays := mkT { t0 : option row; t1 : option sarr1; t2 : option sarr2 }.
Section Consolidate.
Context (order : list nat -> list nat).
(** 4363-4373: np.sum(vals, axis=0) *)
Definition sconsolidate0 (n : nat) (a : sform0) : res row :=
  bind (np_array (sg0 a)) (fun l => map_res (fun i => bind (column i l) (fun c => Ok (fold_right Qplus 0 c))) (seq 0 n)).
(** 4375-4388 *)
Definition sconsolidate1 (n : nat) (a : sform1) : res sarr1 :=
  let ud := order (map fst (sg1 a)) in
  bind (make_d2e ud) (fun d2i =>
  bind (np_array (map snd (sg1 a))) (fun vals =>
  bind (map_res (fun p => dof_index d2i (fst p)) (sg1 a)) (fun rows =>
  bind (map_res (fun i => bind (column i vals) (fun c => Ok (bincount (length ud) (combine rows c)))) (seq 0 n)) (fun b =>
  Ok (mkT1 ud b))))).
(** 4390-4428 *)
Definition sconsolidate2 (n : nat) (a : sform2) : res sarr2 :=
  let ur := order (map (fun t => fst (fst t)) (sg2 a)) in
  let uc := order (map (fun t => snd (fst t)) (sg2 a)) in
  bind (make_d2e ur) (fun r2i =>
  bind (make_d2e uc) (fun c2i =>
  bind (np_array (map snd (sg2 a))) (fun vals =>
  bind (map_res (fun p => dof_index r2i (fst p)) (sb2 a)) (fun xd =>
  bind (np_array (map snd (sb2 a))) (fun xv =>
  bind (map_res (fun t => bind (dof_index r2i (fst (fst t))) (fun i => bind (dof_index c2i (snd (fst t))) (fun j => Ok (i, j)))) (sg2 a)) (fun rc =>
  bind (map_res (fun i => bind (column i vals) (fun c =>
          Ok (tab (length ur) (length uc) (fun k j => coo_entry (combine rc c) k j)))) (seq 0 n)) (fun A =>
  bind (match xd with [] => Ok [] | _ => map_res (fun i => bind (column i xv) (fun c => Ok (bincount (length ur) (combine xd c)))) (seq 0 n) end) (fun x0 =>
  Ok (mkT2 ur uc A x0))))))))).
(** Assembler.assemble, n0 n1 n2: the sample sizes of the aggregate forms *)
Definition sassemble n0 n1 n2 hng dir fuel keep (cells : list (nat * list slocal)) (af : sforms) : res (sforms * sarrays) :=
  bind (sassemble_cells n2 hng dir fuel keep cells af) (fun af' =>
  bind (opt_res (sconsolidate0 n0) (sf0 af')) (fun a0 =>
  bind (opt_res (sconsolidate1 n1) (sf1 af')) (fun a1 =>
  bind (opt_res (sconsolidate2 n2) (sf2 af')) (fun a2 =>
  Ok (af', mkT a0 a1 a2))))).
(** constructor and assemble *)
Definition run_samples (forms : list (nat * nat)) hng dir fuel keep cells : res (sforms * sarrays) :=
  bind (form_size 0 forms) (fun n0 => bind (form_size 1 forms) (fun n1 => bind (form_size 2 forms) (fun n2 =>
  sassemble n0 n1 n2 hng dir fuel keep cells (init_sampled forms)))).
End Consolidate.

(** solve(i_matrix, i_vector) 3741-3775; dir_vals[:,0] (3770) *)
Definition ssolve (solver : mat -> nat -> mat -> option mat) (basis : list nat)
    (hng : list (nat * list (nat * Q))) (dir : list (nat * row)) (i_matrix i_vector : nat) (a : sarrays) : res (list Q) :=
  match t1 a, t2 a with
  | Some b, Some A =>
    match nth_error (sm_mats A) i_matrix, nth_error (sv_vecs b) i_vector, nth_error (sm_x0 A) i_matrix with
    | Some Ai, Some bi, Some x0 =>
      if negb ((length bi =? length x0)%nat && (length (sm_rows A) =? length (sm_cols A))%nat) then Err ValueError else
      let n := length (sm_rows A) in
      match solver Ai 1%nat (map (fun i => [nth i bi 0 - nth i x0 0]) (seq 0 n)) with
      | None => Err GenericException
      | Some y =>
        bind (put_all (repeat 0 (length basis)) (combine (sm_rows A) (map (fun i => entry y i 0) (seq 0 n)))) (fun u1 =>
        bind (np_array (map snd dir)) (fun vals =>
        bind (column 0 vals) (fun d0 =>
        bind (put_all u1 (combine (map fst dir) d0)) (fun u2 =>
        bind (basis_init basis) (fun bs =>
        bind (hanging_node_matrix bs hng) (fun C =>
        Ok (map (fun i => nth i u2 0 + sum (length basis) (fun j => coo_entry C i j * nth j u2 0)) (seq 0 (length basis)))))))))
      end
    | _, _, _ => Err IndexError
    end
  | _, _ => Err AttributeError
  end.

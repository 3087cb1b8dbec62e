(** * Kernels and sampled local forms (src/assembler.py: Kernel 767-996, Form.eval 1222-1410)

    Exact rationals.  A map is what its eval returns at a list of points: rows are points,
    columns samples.  Simplifications: the meta-function F acts entry by entry (on equally
    shaped arrays) and takes no cell arguments; maps of one variable. *)
From Coq Require Import List Arith Bool QArith.
From Verif Require Import Tree Geom Solver Basis.
Import ListNotations.
Open Scope Q_scope.

Notation table := (list (list Q)).
Section Kernel.
Context {X D : Type}.
(** a Map: number of samples and eval; a Nodal function also has a basis, an eval with shape
    functions and dofs given (derivative not used, function.py 1846-1935) *)
Inductive kmap :=
| KExplicit (ns : nat) (ev : list X -> res table)
| KNodal (ns : nat) (basis : nat) (ev : option D -> list X -> res table) (ev_phi : table -> list nat -> res table).
Definition map_samples (f : kmap) : nat := match f with KExplicit n _ => n | KNodal n _ _ _ => n end.
Record kernel := mkKernel { k_f : list kmap; k_d : list (option D); k_F : list Q -> Q; k_n : nat }.

(** set_sample_size, 862-892 *)
Definition size_step (n : nat) (f : kmap) : res nat :=
  let m := map_samples f in
  if (1 <? m)%nat then if (n =? 1)%nat then Ok m else if (n =? m)%nat then Ok n else Err AssertionError
  else Ok n.
Definition sample_size (fs : list kmap) : res nat := fold_res size_step fs 1%nat.

(** the constructor, 771-848 *)
Inductive kderiv := DNone | DList (l : list (option D)) | DOne (d : D).
Definition make_kernel (fs : list kmap) (d : kderiv) (F : option (list Q -> Q)) : res kernel :=
  bind (match d with
        | DNone => Ok (map (fun _ => None) fs)
        | DList l => if (length l =? length fs)%nat then Ok l else Err AssertionError
        | DOne d => Ok (map (fun _ => Some d) fs)
        end) (fun ds =>
  bind (match F with
        | Some F => Ok F
        | None => if (length fs =? 1)%nat then Ok (fun v => nth 0 v 0) else Err AssertionError
        end) (fun F =>
  bind (sample_size fs) (fun n => Ok (mkKernel fs ds F n)))).

(** eval, 950-995.  A missing dictionary key is a KeyError *)
Definition get {V} (b : nat) (d : list (nat * V)) : res V := match find (fun p => Nat.eqb (fst p) b) d with Some p => Ok (snd p) | None => Err KeyError end.
Definition map_eval (f : kmap) (d : option D) (x : list X) (phi : option (list (nat * table))) (dofs : option (list (nat * list nat))) : res table :=
  match f with
  | KExplicit _ ev => ev x
  | KNodal _ b ev evp =>
    bind (match phi with None => Ok None | Some p => bind (get b p) (fun v => Ok (Some v)) end) (fun p =>
    bind (match dofs with None => Ok None | Some p => bind (get b p) (fun v => Ok (Some v)) end) (fun q =>
    match p, q with Some p, Some q => evp p q | _, _ => ev d x end))
  end.
(** 970-975 *)
Definition tile (n : nat) (v : table) : table :=
  if (1 <? n)%nat && (length (nth 0 v []) =? 1)%nat then map (fun r => repeat (nth 0 r 0) n) v else v.
(** F on arrays of np rows and n columns *)
Definition apply_F (F : list Q -> Q) (np n : nat) (vs : list table) : res table :=
  if forallb (fun v => (length v =? np)%nat && forallb (fun r => (length r =? n)%nat) v) vs
  then Ok (map (fun i => map (fun s => F (map (fun v => nth s (nth i v []) 0) vs)) (seq 0 n)) (seq 0 np))
  else Err ValueError.
Definition kernel_eval (k : kernel) (x : list X) (phi : option (list (nat * table))) (dofs : option (list (nat * list nat))) : res table :=
  bind (map_res (fun fd => map_eval (fst fd) (snd fd) x phi dofs) (combine (k_f k) (k_d k))) (fun vs =>
  apply_F (k_F k) (length x) (k_n k) (map (tile (k_n k)) vs)).
End Kernel.
Arguments kmap : clear implicits.
Arguments kernel : clear implicits.
Arguments kderiv : clear implicits.

(** Form.eval: a region is its quadrature nodes and weights and the tables of the shape
    functions of test and trial basis there (rows are nodes) *)
Record region (X : Type) := mkRegion { r_x : list X; r_w : list Q; r_phi : list (nat * table); r_dofs : list (nat * list nat) }.
Arguments mkRegion {X}. Arguments r_x {X}. Arguments r_w {X}. Arguments r_phi {X}. Arguments r_dofs {X}.
Definition qsum (l : list Q) : Q := fold_right Qplus 0 l.
Section Form.
Context {X D : Type} (k : kernel X D).
(** wKer, 1258-1266 *)
Definition weighted (w : list Q) (v : table) : table := map (fun p => map (Qmult (fst p)) (snd p)) (combine w v).
Definition wker (r : region X) : res table :=
  bind (kernel_eval k (r_x r) (Some (r_phi r)) (Some (r_dofs r))) (fun v =>
  if (length v =? length (r_w r))%nat then Ok (weighted (r_w r) v) else Err ValueError).
Definition column (v : table) (s : nat) : list Q := map (fun r => nth s r 0) v.
(** np.dot(A.T, B): entry (a, s) *)
Definition dot_T (na n : nat) (A B : table) : table :=
  map (fun a => map (fun s => qsum (map (fun p => nth a (fst p) 0 * nth s (snd p) 0) (combine A B))) (seq 0 n)) (seq 0 na).
Definition add_rows (A B : list Q) : list Q := map (fun p => fst p + snd p) (combine A B).
Definition add_tab (A B : table) : table := map (fun p => add_rows (fst p) (snd p)) (combine A B).
Definition zeros (n : nat) : list Q := repeat 0 n.
(** 1267-1280 *)
Definition eval_constant (rs : list (region X)) : res (list Q) :=
  fold_res (fun acc r => bind (wker r) (fun v => Ok (add_rows acc (map (fun s => qsum (column v s)) (seq 0 (k_n k)))))) rs (zeros (k_n k)).
(** 1282-1302 *)
Definition eval_linear (test nt : nat) (rs : list (region X)) : res table :=
  fold_res (fun acc r => bind (wker r) (fun v => bind (get test (r_phi r)) (fun t =>
    if (length t =? length v)%nat then Ok (add_tab acc (dot_T nt (k_n k) t v)) else Err ValueError))) rs (repeat (zeros (k_n k)) nt).
(** 1304-1362: f_loc[:,i,:] += test.T (trial[:,i] * wKer).  The result is the list of the
    slices f_loc[:,i,:] *)
Definition eval_bilinear (test trial nt nu : nat) (rs : list (region X)) : res (list table) :=
  fold_res (fun acc r => bind (wker r) (fun v => bind (get test (r_phi r)) (fun t => bind (get trial (r_phi r)) (fun u =>
    if (length t =? length v)%nat && (length u =? length v)%nat then
      Ok (map (fun p => add_tab (snd p) (dot_T nt (k_n k) t (weighted (column u (fst p)) v))) (combine (seq 0 nu) acc))
    else Err ValueError)))) rs (repeat (repeat (zeros (k_n k)) nt) nu).
End Form.

(** * Model of src/spd.py: SPDMatrix, CholeskyDecomposition, EigenDecomposition

    Arithmetic is exact (Coq's reals for numpy's doubles).  A matrix of shape
    (n,m) is a function of two indices (RMat.v); right-hand sides and vectors
    have n rows and any number of columns, so numpy's shape errors are not
    modelled.  What the code calls in scipy and scikit-sparse is a parameter of
    type [lapack]; what each routine is trusted to return is stated in
    SpecSpd.v and assumed, call by call, in the theorems.  The triangular
    solver is written out, because the code relies on which triangle it reads. *)
From Coq Require Import List Arith Reals Lia.
From Verif Require Import Tree RMat.
Import ListNotations.
Local Open Scope bool_scope.
Local Open Scope R_scope.

(** np.finfo(float).eps = 2^-52 (spd.py 33, 416, 899) *)
Definition eps_mach : R := / 2 ^ 52.

(** linalg.norm(C,'fro') (spd.py 417, 900) *)
Definition fro (n : nat) (C : mat) : R :=
  sqrt (sum n (fun i => sum n (fun j => C i j * C i j))).

(** The routines of scipy.linalg and sksparse.cholmod the module calls. *)
Record lapack := {
  (** linalg.eigh(C) / linalg.eigh(C,M): eigenvalues and eigenvectors (columns) *)
  lx_eigh : nat -> mat -> option mat -> (nat -> R) * mat;
  (** linalg.cholesky(C,lower=True); None: np.linalg.LinAlgError *)
  lx_chol : nat -> mat -> option mat;
  (** sksparse cholesky(C,mode='supernodal'): the ordering f.P() and the factor
      f.L(); None: CholmodNotPositiveDefiniteError *)
  lx_cholmod : nat -> mat -> option ((nat -> nat) * mat);
  (** linalg.ldl(C): lu, d, perm *)
  lx_ldl : nat -> mat -> mat * mat * (nat -> nat)
}.

(** ** scipy.linalg.solve_triangular

    Only the triangle selected by [lower] is read; with unit_diagonal=True the
    diagonal is not read either; a zero on the diagonal raises LinAlgError
    (here [ValueError], of which LinAlgError is a subclass). *)

(** forward substitution, one column: entries 0..k-1 of the solution *)
Fixpoint fwd (unit : bool) (A b : mat) (j : nat) (k : nat) : nat -> R :=
  match k with
  | O => fun _ => 0
  | S k' =>
    let x := fwd unit A b j k' in
    fun i => if (i =? k')%nat
             then (b k' j - sum k' (fun l => A k' l * x l)) / (if unit then 1 else A k' k')
             else x i
  end.

Definition flip2 (n : nat) (A : mat) : mat := fun i j => A (n - 1 - i)%nat (n - 1 - j)%nat.
Definition flip1 (n : nat) (b : mat) : mat := fun i j => b (n - 1 - i)%nat j.

Fixpoint has_zero (n : nat) (d : nat -> R) : bool :=
  match n with
  | O => false
  | S k => if Req_EM_T (d k) 0 then true else has_zero k d
  end.

(** linalg.solve_triangular(A, b, lower, unit_diagonal); an upper triangular
    system is the lower triangular one with the indices reversed *)
Definition solve_triangular (n : nat) (A b : mat) (lower unit : bool) : res mat :=
  if negb unit && has_zero n (fun i => A i i) then Err ValueError
  else Ok (if lower then fun i j => fwd unit A b j n i
           else flip1 n (fun i j => fwd unit (flip2 n A) (flip1 n b) j n i)).

(** ** diagonal_pseudo_inverse (spd.py 18-46) *)
Definition diagonal_pseudo_inverse (d : nat -> R) (eps : option R) : res mat :=
  let inv e := mdiag (fun i => if Rlt_dec e (Rabs (d i)) then 1 / d i else 0) in
  match eps with
  | None => Ok (inv eps_mach)                                  (* 30-34 *)
  | Some e => if Rlt_dec 0 e then Ok (inv e) else Err AssertionError   (* 36 *)
  end.

(** ** EigenDecomposition (spd.py 816-1163) *)
Record eig := {
  e_n : nat;                 (* get_size (98-107) *)
  e_C : mat;                 (* get_matrix (86-95) *)
  e_M : option mat;          (* get_mass_matrix (856-860) *)
  e_delta : R;               (* get_eigenvalue_lower_bound (909-913) *)
  e_d : nat -> R;            (* get_eigenvalues (998-1002) *)
  e_V : mat                  (* get_eigenvectors (991-995) *)
}.

(** set_eigenvalue_lower_bound (spd.py 877-906): the default bound *)
Definition eig_bound (n : nat) (C : mat) (delta : option R) : R :=
  match delta with None => sqrt eps_mach * fro n C | Some x => x end.

(** d[d<=delta] = delta (spd.py 968) *)
Definition clip (delta : R) (d : nat -> R) : nat -> R :=
  fun i => if Rle_dec (d i) delta then delta else d i.

(** decompose (spd.py 916-973), for a dense matrix *)
Definition eig_decompose (lx : lapack) (n : nat) (C : mat) (M : option mat) (delta : R)
  : (nat -> R) * mat :=
  let '(d, V) := lx_eigh lx n C M in                            (* 946-957 *)
  (clip delta (fun i => d (n - 1 - i)%nat),                     (* 960, 968 *)
   fun i j => V i (n - 1 - j)%nat).                             (* 961 *)

(** EigenDecomposition(C, M, delta) (spd.py 823-846).  numpy's shape attribute
    is not modelled: C is square by the type of its size. *)
Definition eig_init (lx : lapack) (n : nat) (C : mat) (M : option mat) (delta : option R)
  : res eig :=
  let dl := eig_bound n C delta in
  if Rle_dec 0 dl then                                          (* 903 *)
    let '(d, V) := eig_decompose lx n C M dl in
    Ok {| e_n := n; e_C := C; e_M := M; e_delta := dl; e_d := d; e_V := V |}
  else Err AssertionError.

(** reconstruct (spd.py 1005-1015): the matrix, and the mass matrix if there is one *)
Definition eig_reconstruct (e : eig) : mat * option mat :=
  let n := e_n e in
  (mmul n (e_V e) (mmul n (mdiag (e_d e)) (mtr (e_V e))), e_M e).

(** dot (spd.py 1018-1023) *)
Definition eig_dot (e : eig) (b : mat) : mat :=
  let n := e_n e in
  mmul n (e_V e) (mmul n (mdiag (e_d e)) (mmul n (mtr (e_V e)) b)).

(** solve (spd.py 1026-1065); generalized=True without a mass matrix calls
    None.dot *)
Definition eig_solve (e : eig) (b : mat) (eps : option R) (generalized : bool) : res mat :=
  let n := e_n e in
  bind (diagonal_pseudo_inverse (e_d e) eps) (fun Dinv =>
  if generalized then
    match e_M e with
    | None => Err AttributeError
    | Some M => Ok (mmul n (e_V e) (mmul n Dinv (mmul n (mtr (e_V e)) (mmul n M b))))
    end
  else Ok (mmul n (e_V e) (mmul n Dinv (mmul n (mtr (e_V e)) b)))).

(** sqrt_dot (spd.py 1068-1091) *)
Definition eig_sqrt_dot (e : eig) (x : mat) (transpose : bool) : mat :=
  let n := e_n e in
  let sd := mdiag (fun i => sqrt (e_d e i)) in
  if transpose then mmul n sd (mmul n (mtr (e_V e)) x)
  else mmul n (e_V e) (mmul n sd x).

(** sqrt_solve (spd.py 1094-1119) *)
Definition eig_sqrt_solve (e : eig) (b : mat) (transpose : bool) (eps : option R) : res mat :=
  let n := e_n e in
  bind (diagonal_pseudo_inverse (fun i => sqrt (e_d e i)) eps) (fun Sinv =>
  Ok (if transpose then mmul n (e_V e) (mmul n Sinv b)
      else mmul n Sinv (mmul n (mtr (e_V e)) b))).

(** boolean masks np.abs(d)<tol, np.abs(d)>tol and V[:,mask] (the list of the
    selected columns) *)
Definition below (tol : R) (d : nat -> R) (i : nat) : bool :=
  if Rlt_dec (Rabs (d i)) tol then true else false.
Definition above (tol : R) (d : nat -> R) (i : nat) : bool :=
  if Rlt_dec tol (Rabs (d i)) then true else false.
Definition columns (n : nat) (V : mat) (mask : nat -> bool) : list (nat -> R) :=
  map (fun j i => V i j) (filter mask (seq 0 n)).

(** get_nullspace (spd.py 1122-1133), get_rank (1136-1150), get_range (1153-1163) *)
Definition eig_nullspace (e : eig) (tol : R) : list (nat -> R) :=
  columns (e_n e) (e_V e) (below tol (e_d e)).
Definition eig_rank (e : eig) (tol : R) : nat :=
  length (filter (above tol (e_d e)) (seq 0 (e_n e))).
Definition eig_range (e : eig) (tol : R) : list (nat -> R) :=
  columns (e_n e) (e_V e) (above tol (e_d e)).
(** the default tolerance 1e-13 of the three methods *)
Definition tol_rank : R := / 10 ^ 13.

(** ** CholeskyDecomposition (spd.py 212-812) *)

(** what set_factors (475-479) stores *)
Inductive factors :=
| Full (L : mat)                                  (* linalg.cholesky *)
| Sparse (p : nat -> nat) (L : mat)               (* CHOLMOD: f.P(), f.L() *)
| Modified (L D P D0 : mat).                      (* modchol_ldlt *)

Record chol := { c_n : nat; c_C : mat; c_f : factors }.

(** is_degenerate (294-299), is_sparse (145-154) after decompose *)
Definition chol_degenerate (c : chol) : bool :=
  match c_f c with Modified _ _ _ _ => true | _ => false end.
Definition chol_is_sparse (c : chol) : bool :=
  match c_f c with Sparse _ _ => true | _ => false end.

(** np.allclose(C, C.T, atol=1e-12): |C - C'| <= 1e-12 + 1e-5*|C'| (spd.py 412) *)
Definition close (a b : R) : bool :=
  if Rle_dec (Rabs (a - b)) (/ 10 ^ 12 + / 10 ^ 5 * Rabs b) then true else false.
Definition symmetric_close (n : nat) (C : mat) : bool :=
  forallb (fun i => forallb (fun j => close (C i j) (C j i)) (seq 0 n)) (seq 0 n).

Definition setblock1 (A : mat) (k : nat) (x : R) : mat :=
  fun i j => if ((i =? k) && (j =? k))%nat%bool then x else A i j.
(** A[k:k+2,k:k+2] = B *)
Definition setblock2 (A : mat) (k : nat) (B : mat) : mat :=
  fun i j => if ((k <=? i) && (i <? k + 2) && (k <=? j) && (j <? k + 2))%nat%bool
             then B (i - k)%nat (j - k)%nat else A i j.

(** the loop of modchol_ldlt (spd.py 425-460), [fuel] bounding its passes *)
Fixpoint modchol_loop (lx : lapack) (n : nat) (delta : R) (D : mat)
         (fuel k : nat) (DMC : mat) : mat :=
  match fuel with
  | O => DMC
  | S fuel' =>
    if (k <? n)%nat then
      if ((k =? n - 1)%nat || (if Req_EM_T (D k (S k)) 0 then true else false))%bool then
        let x := if Rle_dec (D k k) delta then delta else D k k in
        modchol_loop lx n delta D fuel' (k + 1) (setblock1 DMC k x)
      else
        let E := fun i j => D (k + i)%nat (k + j)%nat in
        let '(t, U) := lx_eigh lx 2 E None in
        let T := mdiag (fun i => if Rle_dec (t i) delta then delta else t i) in
        let temp := mmul 2 U (mmul 2 T (mtr U)) in
        modchol_loop lx n delta D fuel' (k + 2)
          (setblock2 DMC k (fun i j => (temp i j + temp j i) / 2))
    else DMC
  end.

(** modchol_ldlt(C), default delta (spd.py 380-472) *)
Definition modchol_ldlt (lx : lapack) (n : nat) (C : mat) : res factors :=
  if symmetric_close n C then                                    (* 412 *)
    let delta := sqrt eps_mach * fro n C in                      (* 415-417 *)
    let '(L, D, p) := lx_ldl lx n C in                           (* 424 *)
    let DMC := modchol_loop lx n delta D n 0 mid in
    let P := fun i j => mid i (p j) in                           (* eye(n)[:,p], 461-462 *)
    Ok (Modified L DMC P D)
  else Err AssertionError.

(** CholeskyDecomposition(C): __init__ and decompose (spd.py 270-377).  A
    sparse matrix CHOLMOD rejects is converted to full. *)
Definition chol_init (lx : lapack) (n : nat) (sparse : bool) (C : mat) : res chol :=
  let ok f := Ok {| c_n := n; c_C := C; c_f := f |} in
  if sparse then
    match lx_cholmod lx n C with
    | Some (p, L) => ok (Sparse p L)
    | None => bind (modchol_ldlt lx n C) ok
    end
  else
    match lx_chol lx n C with
    | Some L => ok (Full L)
    | None => bind (modchol_ldlt lx n C) ok
    end.

(** I[P,:] and f.apply_P(b) = b[P]; f.apply_Pt is its transpose *)
Definition perm_rows (p : nat -> nat) : mat := fun i j => mid (p i) j.

(** reconstruct (spd.py 516-558) *)
Definition chol_reconstruct (c : chol) (degenerate : bool) : mat :=
  let n := c_n c in
  match c_f c with
  | Sparse p L =>
    let PL := mmul n (mtr (perm_rows p)) L in mmul n PL (mtr PL)
  | Full L => mmul n L (mtr L)
  | Modified L D P D0 =>
    let X := if degenerate then D0 else D in
    mmul n (mtr P) (mmul n L (mmul n X (mmul n (mtr L) P)))
  end.

(** dot (spd.py 562-585); a sparse right-hand side is multiplied as (b'C)' *)
Definition chol_dot (c : chol) (b : mat) (b_sparse : bool) : mat :=
  let n := c_n c in
  if b_sparse then mtr (mmul n (mtr b) (c_C c)) else mmul n (c_C c) b.

(** solve (spd.py 588-628).  CHOLMOD's solve_A is modelled by its definition:
    permute, solve with L and L', permute back. *)
Definition chol_solve (c : chol) (b : mat) : res mat :=
  let n := c_n c in
  match c_f c with
  | Sparse p L =>
    bind (solve_triangular n L (mmul n (perm_rows p) b) true false) (fun y =>
    bind (solve_triangular n (mtr L) y false false) (fun x =>
    Ok (mmul n (mtr (perm_rows p)) x)))
  | Full L =>
    bind (solve_triangular n L b true false) (fun y =>
    solve_triangular n (mtr L) y false false)
  | Modified L D P D0 =>
    let PL := mmul n P L in
    bind (solve_triangular n PL (mmul n P b) true true) (fun y =>
    let z := mmul n (mdiag (fun i => 1 / D i i)) y in
    bind (solve_triangular n (mtr PL) z false true) (fun x =>
    Ok (mmul n (mtr P) x)))
  end.

(** sqrt_dot (spd.py 630-699) *)
Definition chol_sqrt_dot (c : chol) (b : mat) (transpose : bool) : mat :=
  let n := c_n c in
  match c_f c with
  | Sparse p L =>
    if transpose then mmul n (mtr L) (mmul n (perm_rows p) b)
    else mmul n (mtr (perm_rows p)) (mmul n L b)
  | Full L => if transpose then mmul n (mtr L) b else mmul n L b
  | Modified L D P D0 =>
    let sqrtD := mdiag (fun i => sqrt (D i i)) in
    if transpose then mmul n sqrtD (mmul n (mtr L) (mmul n P b))
    else mmul n (mtr P) (mmul n L (mmul n sqrtD b))
  end.

(** sqrt_solve (spd.py 702-774) *)
Definition chol_sqrt_solve (c : chol) (b : mat) (transpose : bool) : res mat :=
  let n := c_n c in
  match c_f c with
  | Sparse p L =>
    if transpose then
      bind (solve_triangular n (mtr L) b false false) (fun x =>
      Ok (mmul n (mtr (perm_rows p)) x))
    else solve_triangular n L (mmul n (perm_rows p) b) true false
  | Full L =>
    if transpose then solve_triangular n (mtr L) b false false
    else solve_triangular n L b true false
  | Modified L D P D0 =>
    let sqrtD := mdiag (fun i => sqrt (D i i)) in
    if transpose then
      bind (solve_triangular n (mmul n sqrtD (mtr L)) b false false) (fun x =>
      Ok (mmul n (mtr P) x))
    else solve_triangular n (mmul n L sqrtD) (mmul n P b) false false   (* lower not given *)
  end.

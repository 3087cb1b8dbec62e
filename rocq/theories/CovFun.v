(** * Model of the covariance functions of src/gmrf.py (173-372) and of the matrix that
    Covariance.assemble builds from them (665-685)

    Arithmetic is exact (Coq's reals; dividing by l = 0 or raising to a power is only
    meaningful for l <> 0 and a positive base, which the theorems assume).  Arrays carry
    their shape.  A result of shape (n,) and one of shape (n,1) are both modelled by n x 1
    arrays: Explicit.eval (function.py 1538-1579) ravels either before use.  Not modelled:
    arrays with other than two axes, parameters of other types, lists of parameters. *)
From Coq Require Import List Arith Reals Lia.
From Verif Require Import Tree RMat Spd Gauss.
Import ListNotations.
Local Open Scope R_scope.

(** The argument M: None, a number, or an array *)
Inductive aniso := NoM | Scalar (m : R) | Tensor (T : arr).

Definition same_shape (x y : arr) : bool := ((a_r x =? a_r y) && (a_c x =? a_c y))%nat%bool.

(** np.linalg.eigvals of a real 2x2 matrix, all(... >= 0): the eigenvalues are
    (t -+ sqrt(t^2-4d))/2 for the trace t and determinant d; complex numbers are compared
    by their real parts first and then by their imaginary parts *)
Definition eigvals_nonneg (T : mat) : bool :=
  let t := T 0%nat 0%nat + T 1%nat 1%nat in
  let d := T 0%nat 0%nat * T 1%nat 1%nat - T 0%nat 1%nat * T 1%nat 0%nat in
  let disc := t * t - 4 * d in
  if Rlt_dec disc 0 then (if Rlt_dec 0 t then true else false)
  else if Rle_dec 0 ((t - sqrt disc) / 2) then true else false.
(** np.allclose(M, M.transpose()): |M - M'| <= 1e-8 + 1e-5*|M'| *)
Definition allclose_T (T : mat) : bool :=
  forallb (fun i => forallb (fun j =>
    if Rle_dec (Rabs (T i j - T j i)) (1 / 100000000 + 1 / 100000 * Rabs (T j i)) then true else false)
    [0%nat; 1%nat]) [0%nat; 1%nat].

(** np.min(np.array([d, w - d]), axis=0) *)
Definition wrap (w d : R) : R := Rmin d (w - d).

(** def distance (173-246); the function returns None in other dimensions, which its
    callers cannot use (TypeError) *)
Definition distance (x y : arr) (M : aniso) (periodic : bool) (box : option (list R)) : res arr :=
  if same_shape x y then                                               (* 197 *)
    let n := a_r x in
    if (a_c x =? 1)%nat then                                           (* 200 *)
      let d i := Rabs (a_m x i 0%nat - a_m y i 0%nat) in
      bind (if periodic then
              match box with
              | None => Err AssertionError                             (* 206 *)
              | Some [x_min; x_max] => Ok (fun i => wrap (x_max - x_min) (d i))
              | Some _ => Err ValueError                               (* 209 *)
              end
            else Ok d) (fun dx =>
      match M with
      | NoM => Ok (mkarr n 1 (fun i _ => dx i))                        (* 216 *)
      | Scalar m =>
          if Rle_dec 0 m then Ok (mkarr n 1 (fun i _ => sqrt m * dx i)) (* 221 *)
          else Err AssertionError
      | Tensor _ => Err AssertionError                                 (* 218 *)
      end)
    else if (a_c x =? 2)%nat then                                      (* 222 *)
      let d c i := Rabs (a_m x i c - a_m y i c) in                     (* 226-227 *)
      bind (if periodic then
              match box with
              | None => Err AssertionError
              | Some [x_min; x_max; y_min; y_max] =>
                  Ok (fun i => wrap (x_max - x_min) (d 0%nat i), fun i => wrap (y_max - y_min) (d 1%nat i))
              | Some _ => Err ValueError
              end
            else Ok (d 0%nat, d 1%nat)) (fun p => let '(dx, dy) := p in
      match M with
      | NoM => Ok (mkarr n 1 (fun i _ => sqrt (dx i ^ 2 + dy i ^ 2)))  (* 236 *)
      | Scalar _ => Err GenericException                               (* LinAlgError *)
      | Tensor T =>
          if ((a_r T =? 2) && (a_c T =? 2))%nat%bool then
            let t := a_m T in
            if (eigvals_nonneg t && allclose_T t)%bool then            (* 238-240 *)
              Ok (mkarr n 1 (fun i _ =>
                sqrt (dx i * (t 0%nat 0%nat * dx i + t 0%nat 1%nat * dy i) +
                      dy i * (t 1%nat 0%nat * dx i + t 1%nat 1%nat * dy i))))   (* 242-244 *)
            else Err AssertionError
          else Err GenericException     (* some exception of eigvals, allclose or dot *)
      end)
    else Err TypeError
  else Err AssertionError.

(** def constant (247-266) *)
Definition constant (sgm : R) (x y : arr) : res arr :=
  if same_shape x y then Ok (mkarr (a_r x) 1 (fun _ _ => sgm)) else Err AssertionError.

(** np.sum(A, axis=1) *)
Definition row_sum (A : arr) : arr := mkarr (a_r A) 1 (fun i _ => sum (a_c A) (a_m A i)).
Definition np_mul := np_op Rmult.
Definition np_shift (c : R) (A : arr) : arr := mkarr (a_r A) (a_c A) (fun i j => c + a_m A i j).

(** def linear (269-306) *)
Definition linear (sgm : R) (M : aniso) (x y : arr) : res arr :=
  if (a_c x =? 1)%nat then
    match M with
    | NoM => bind (np_mul x y) (fun p => Ok (np_shift (sgm ^ 2) p))    (* 291 *)
    | Scalar m => np_mul (mkarr (a_r x) 1 (fun i j => a_m x i j * m)) y   (* 294 *)
    | Tensor _ => Err AssertionError
    end
  else if (a_c x =? 2)%nat then
    match M with
    | NoM => bind (np_mul x y) (fun p => Ok (np_shift (sgm ^ 2) (row_sum p)))   (* 301 *)
    | Scalar _ => Err AttributeError                                   (* M.shape *)
    | Tensor T =>
        if ((a_r T =? 2) && (a_c T =? 2))%nat%bool then
          bind (np_dot T (np_T y)) (fun My =>                          (* 304-305 *)
          bind (np_mul x (np_T My)) (fun p => Ok (np_shift (sgm ^ 2) (row_sum p))))
        else Err AssertionError
    end
  else Err GenericException.

Definition on_distance (g : R -> R) (x y : arr) (M : aniso) (periodic : bool) (box : option (list R)) : res arr :=
  bind (distance x y M periodic box) (fun d => Ok (mkarr (a_r d) 1 (fun i _ => g (a_m d i 0%nat)))).

(** def gaussian (310-318), exponential (321-334), rational (363-371) *)
Definition gaussian (sgm l : R) (M : aniso) (periodic : bool) (box : option (list R)) (x y : arr) : res arr :=
  on_distance (fun d => sgm ^ 2 * exp (- d ^ 2 / (2 * l ^ 2))) x y M periodic box.
Definition exponential (sgm l : R) (M : aniso) (periodic : bool) (box : option (list R)) (x y : arr) : res arr :=
  on_distance (fun d => sgm ^ 2 * exp (- d / l)) x y M periodic box.
Definition rational (a : R) (M : aniso) (periodic : bool) (box : option (list R)) (x y : arr) : res arr :=
  on_distance (fun d => Rpower (1 / (1 + d ^ 2)) a) x y M periodic box.

(** def matern (337-360), for nu > 0.  gamma and kv (scipy.special) are parameters.  At
    d = 0 numpy computes 0*inf = nan, which the last line replaces by 1. *)
Definition matern (gamma : R -> R) (kv : R -> R -> R) (sgm nu l : R) (M : aniso) (periodic : bool)
    (box : option (list R)) (x y : arr) : res arr :=
  on_distance (fun d =>
    if Req_EM_T d 0 then 1
    else sgm ^ 2 * Rpower 2 (1 - nu) / gamma nu * Rpower (sqrt (2 * nu) * d / l) nu * kv nu (sqrt (2 * nu) * d / l))
    x y M periodic box.

(** ** The matrix of a kernel at the points x (Covariance.assemble 667-672, with
    Explicit.eval, function.py 1562-1579): X = x[I,:], Y = x[J,:] for
    I,J = np.mgrid[0:n,0:n], then k(X,Y) reshaped to (n,n) *)
Definition left_points (x : arr) : arr := let n := a_r x in mkarr (n * n) (a_c x) (fun k c => a_m x (k / n)%nat c).
Definition right_points (x : arr) : arr := let n := a_r x in mkarr (n * n) (a_c x) (fun k c => a_m x (k mod n)%nat c).
Definition kernel_matrix (k : arr -> arr -> res arr) (x : arr) : res mat :=
  let n := a_r x in
  bind (k (left_points x) (right_points x)) (fun v =>
  if ((a_r v =? n * n) && (a_c v =? 1))%nat%bool then Ok (fun i j => a_m v (i * n + j)%nat 0%nat)
  else Err ValueError).
(** C = M K M' for discretization='interpolation' (680) *)
Definition interpolation_matrix (k : arr -> arr -> res arr) (x : arr) (M : mat) : res mat :=
  let n := a_r x in
  bind (kernel_matrix k x) (fun K => Ok (mmul n M (mmul n K (mtr M)))).

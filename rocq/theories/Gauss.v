(** * Model of class GaussianField of src/gmrf.py (736-1571)

    Arithmetic is exact (Coq's reals).  Arrays carry their shape, numpy's
    broadcasting and shape errors (ValueError) are modelled.  Random numbers
    (np.random.normal) are an argument.  scipy.linalg.solve is a parameter; None
    is LinAlgError, a subclass of ValueError.  Not modelled: printing, the dead
    code in string literals, [truncate] (calls get_eig_decomp, which does not
    exist), [b] (reads an attribute that is never set), [set_dependence]
    (marked superfluous), [chol_condition]. *)
From Coq Require Import List Arith Reals Lia.
From Verif Require Import Tree RMat Spd.
Import ListNotations.
Local Open Scope R_scope.

(** ** numpy arrays with two axes *)
Record arr := mkarr { a_r : nat; a_c : nat; a_m : mat }.

(** A.dot(B) *)
Definition np_dot (A B : arr) : res arr :=
  if (a_c A =? a_r B)%nat then Ok (mkarr (a_r A) (a_c B) (mmul (a_c A) (a_m A) (a_m B)))
  else Err ValueError.
Definition np_T (A : arr) : arr := mkarr (a_c A) (a_r A) (mtr (a_m A)).
(** A op B with broadcasting of axes of length one *)
Definition bdim (a b : nat) : option nat :=
  if (a =? b)%nat then Some a else if (a =? 1)%nat then Some b else if (b =? 1)%nat then Some a else None.
Definition bidx (a n i : nat) : nat := if (a =? n)%nat then i else 0%nat.
Definition np_op (f : R -> R -> R) (A B : arr) : res arr :=
  match bdim (a_r A) (a_r B), bdim (a_c A) (a_c B) with
  | Some r, Some c => Ok (mkarr r c (fun i j =>
      f (a_m A (bidx (a_r A) r i) (bidx (a_c A) c j)) (a_m B (bidx (a_r B) r i) (bidx (a_c B) c j))))
  | _, _ => Err ValueError
  end.
Definition np_add := np_op Rplus.
Definition np_sub := np_op Rminus.
(** np.tile(A, (1,k)) *)
Definition np_tile (A : arr) (k : nat) : arr :=
  mkarr (a_r A) (a_c A * k) (fun i j => a_m A i (j mod a_c A)%nat).
(** A[:,j][:,None] *)
Definition np_col (A : arr) (j : nat) : res arr :=
  if (j <? a_c A)%nat then Ok (mkarr (a_r A) 1 (fun i _ => a_m A i j)) else Err IndexError.
(** A[lo:hi,:] and A[:,lo:hi] *)
Definition np_rows (A : arr) (lo hi : nat) : arr :=
  mkarr (Nat.min hi (a_r A) - lo) (a_c A) (fun i j => a_m A (lo + i)%nat j).
Definition np_cols (A : arr) (lo hi : nat) : arr :=
  mkarr (a_r A) (Nat.min hi (a_c A) - lo) (fun i j => a_m A i (lo + j)%nat).

(** linalg.solve(A,b) *)
Definition solver := nat -> mat -> mat -> option mat.
Definition np_solve (ls : solver) (A b : arr) : res arr :=
  if ((a_r A =? a_c A) && (a_r b =? a_r A))%nat%bool then
    match ls (a_r A) (a_m A) (a_m b) with
    | Some x => Ok (mkarr (a_r A) (a_c b) x)
    | None => Err ValueError
    end
  else Err ValueError.

(** ** The matrix objects of spd.py *)
Inductive spd := SEig (e : eig) | SChol (c : chol) | SPlain (n : nat) (C : mat).

(** get_size, get_matrix (spd.py 86-107) *)
Definition spd_size (o : spd) : nat :=
  match o with SEig e => e_n e | SChol c => c_n c | SPlain n _ => n end.
Definition spd_matrix (o : spd) : arr :=
  mkarr (spd_size o) (spd_size o) (match o with SEig e => e_C e | SChol c => c_C c | SPlain _ C => C end).
(** dot, solve, sqrt_dot, sqrt_solve; those of the base class take no argument
    (spd.py 183-208), so that calling them raises TypeError *)
Definition spd_call (o : spd) (b : arr) (f : mat -> res mat) : res arr :=
  match o with
  | SPlain _ _ => Err TypeError
  | _ => if (a_r b =? spd_size o)%nat then bind (f (a_m b)) (fun y => Ok (mkarr (spd_size o) (a_c b) y))
         else Err ValueError
  end.
Definition spd_dot (o : spd) (b : arr) : res arr :=
  spd_call o b (fun x => match o with
    | SEig e => Ok (eig_dot e x) | SChol c => Ok (chol_dot c x false) | SPlain _ _ => Err TypeError end).
Definition spd_solve (o : spd) (b : arr) : res arr :=
  spd_call o b (fun x => match o with
    | SEig e => eig_solve e x None false | SChol c => chol_solve c x | SPlain _ _ => Err TypeError end).
Definition spd_sqrt_dot (o : spd) (b : arr) (t : bool) : res arr :=
  spd_call o b (fun x => match o with
    | SEig e => Ok (eig_sqrt_dot e x t) | SChol c => Ok (chol_sqrt_dot c x t) | SPlain _ _ => Err TypeError end).
Definition spd_sqrt_solve (o : spd) (b : arr) (t : bool) : res arr :=
  spd_call o b (fun x => match o with
    | SEig e => eig_sqrt_solve e x t None | SChol c => chol_sqrt_solve c x t | SPlain _ _ => Err TypeError end).

(** ** GaussianField *)
Record field := {
  g_n : nat;                     (* size (931-948, 1094-1098) *)
  g_mean : arr;                  (* 792-814 *)
  g_canonical : option arr;      (* 830-843 *)
  g_cov : option spd;            (* 859-892 *)
  g_prec : option spd;           (* 895-928 *)
  g_supp : option arr            (* 992-1016 *)
}.

(** a covariance/precision argument: a matrix object or a dense array *)
Inductive operand := Obj (o : spd) | Arr (A : arr).

(** SPDMatrix.__init__ (spd.py 50-62): the array must be square *)
Definition square (A : arr) : bool := (a_r A =? a_c A)%nat.

(** set_covariance (gmrf.py 859-885): arrays get the eigendecomposition *)
Definition set_covariance (lx : lapack) (x : option operand) : res (option spd) :=
  match x with
  | None => Ok None
  | Some (Obj (SPlain _ _)) => Err GenericException
  | Some (Obj o) => Ok (Some o)
  | Some (Arr A) => if square A then
      bind (eig_init lx (a_r A) (a_m A) None None) (fun e => Ok (Some (SEig e))) else Err AssertionError
  end.
(** set_precision (gmrf.py 895-921): arrays get the Cholesky decomposition *)
Definition set_precision (lx : lapack) (x : option operand) : res (option spd) :=
  match x with
  | None => Ok None
  | Some (Obj o) => Ok (Some o)
  | Some (Arr A) => if square A then
      bind (chol_init lx (a_r A) false (a_m A)) (fun c => Ok (Some (SChol c))) else Err AssertionError
  end.
(** np.allclose(X, np.identity(k)) (gmrf.py 1012): |a-b| <= 1e-8 + 1e-5*|b| *)
Definition near (a b : R) : bool :=
  if Rle_dec (Rabs (a - b)) (/ 10 ^ 8 + / 10 ^ 5 * Rabs b) then true else false.
Definition near_id (k : nat) (X : mat) : bool :=
  forallb (fun i => forallb (fun j => near (X i j) (mid i j)) (seq 0 k)) (seq 0 k).
(** set_support (gmrf.py 992-1016) *)
Definition set_support (n : nat) (s : option arr) : res (option arr) :=
  match s with
  | None => Ok None
  | Some V =>
    if (negb (a_r V =? n) || negb (a_c V <=? n))%nat%bool then Err AssertionError
    else if near_id (a_c V) (mmul (a_r V) (mtr (a_m V)) (a_m V)) then Ok (Some V) else Err AssertionError
  end.

(** __init__ (gmrf.py 755-789), set_size (931-941), set_mean (792-807) *)
Definition gf_init (lx : lapack) (n : nat) (mean canonical : option arr) (cov prec : option operand)
  (supp : option arr) : res field :=
  if (n =? 0)%nat then Err AssertionError else
  bind (match mean with
        | None => Ok (mkarr n 1 mzero)
        | Some m => if (a_r m =? n)%nat then Ok m else Err AssertionError
        end) (fun m =>
  bind (set_covariance lx cov) (fun c =>
  bind (set_precision lx prec) (fun q =>
  bind (set_support n supp) (fun s =>
  Ok {| g_n := n; g_mean := m; g_canonical := canonical; g_cov := c; g_prec := q; g_supp := s |})))).

(** mean(col, n_copies) (gmrf.py 1101-1124), default number of copies *)
Definition gf_mean (f : field) (c : nat) : res arr := np_col (g_mean f) c.

(** compute_mean (gmrf.py 817-827); the canonical mean None is no array *)
Definition gf_compute_mean (f : field) : res field :=
  match g_canonical f with
  | None => Err AttributeError
  | Some b =>
    bind (match g_prec f with
          | Some q => spd_solve q b
          | None => match g_cov f with Some k => spd_dot k b | None => Err AttributeError end
          end) (fun m =>
    Ok {| g_n := g_n f; g_mean := m; g_canonical := g_canonical f; g_cov := g_cov f;
          g_prec := g_prec f; g_supp := g_supp f |})
  end.
(** compute_canonical_mean (gmrf.py 846-856) *)
Definition gf_compute_canonical (f : field) : res field :=
  bind (gf_mean f 0) (fun mu =>
  bind (match g_prec f with
        | Some q => spd_dot q mu
        | None => match g_cov f with Some k => spd_solve k mu | None => Err AttributeError end
        end) (fun b =>
  Ok {| g_n := g_n f; g_mean := g_mean f; g_canonical := Some b; g_cov := g_cov f;
        g_prec := g_prec f; g_supp := g_supp f |})).

(** project (gmrf.py 1075-1091) *)
Definition gf_project (f : field) (b : arr) (nullspace : bool) : res arr :=
  match g_supp f with
  | None => Err AttributeError
  | Some V =>
    bind (np_dot (np_T V) b) (fun c =>
    bind (np_dot V c) (fun Pb => if nullspace then np_sub b Pb else Ok Pb))
  end.

(** update_support, mode='covariance', tol=1e-12 (gmrf.py 1019-1072); a Cholesky
    decomposition (GenericException here) is not modelled *)
Definition masked (e : eig) : list nat :=
  filter (fun i => if Rlt_dec (/ 10 ^ 12) (Rabs (e_d e i)) then true else false) (seq 0 (e_n e)).
Definition gf_update_support (f : field) : res field :=
  match g_cov f with
  | None => Err AssertionError
  | Some (SPlain _ _) => Err AttributeError
  | Some (SChol _) => Err GenericException
  | Some (SEig e) =>
    let idx := masked e in
    let m := length idx in
    let D := mdiag (fun i => e_d e (nth i idx 0%nat)) in
    let V := mkarr (e_n e) m (fun i j => e_V e i (nth j idx 0%nat)) in
    bind (match g_supp f with Some W => np_dot W V | None => Ok V end) (fun V' =>
    bind (set_support (g_n f) (Some V')) (fun s =>
    Ok {| g_n := g_n f; g_mean := g_mean f; g_canonical := g_canonical f; g_cov := Some (SPlain m D);
          g_prec := g_prec f; g_supp := s |}))
  end.

Inductive mode := Covariance | Precision | Canonical | OtherMode.

(** sample(n_samples, z, mode) (gmrf.py 1272-1375); [rnd] is what
    np.random.normal returns; the arguments m_col and T are not used by the code *)
Definition gf_sample (f : field) (rnd : mat) (n_samples : nat) (z : option arr) (md : mode) : res arr :=
  match md with
  | OtherMode => Err NameError
  | _ =>
    match (match md with Covariance => g_cov f | _ => g_prec f end) with
    | None => Err AssertionError
    | Some C =>
      bind (match z with
            | Some z' => if (a_r z' =? spd_size C)%nat then Ok z' else Err AssertionError
            | None => Ok (mkarr (spd_size C) n_samples rnd)
            end) (fun z' =>
      bind (match md with
            | Covariance => spd_sqrt_dot C z' false
            | _ => spd_sqrt_solve C z' true
            end) (fun Lz =>
      np_add Lz (np_tile (g_mean f) (a_c z'))))
    end
  end.

(** KL_sample(i_min, i_max, n_samples, z) (gmrf.py 1162-1224); mode is not used
    by the code; non-negative indices *)
Definition gf_KL (f : field) (rnd : mat) (i_min : nat) (i_max : option nat) (n_samples : nat)
  (z : option arr) : res arr :=
  bind (gf_mean f 0) (fun mean =>
  match g_cov f with
  | Some (SEig e) =>
    let im := match i_max with Some i => i | None => (g_n f - 1)%nat end in
    if (im <? i_min)%nat then Err AssertionError
    else if (g_n f <=? im)%nat then Err AssertionError
    else
      bind (match z with
            | None => Ok (mkarr (g_n f) n_samples rnd)
            | Some z' => if (a_r z' =? im - i_min + 1)%nat then Ok z' else Err AssertionError
            end) (fun z' =>
      let V := mkarr (e_n e) (e_n e) (e_V e) in
      let k := (Nat.min (im + 1) (e_n e) - i_min)%nat in
      let sd := mkarr k k (mdiag (fun i => sqrt (e_d e (i_min + i)%nat))) in
      bind (np_dot sd (np_rows z' i_min (im + 1))) (fun y =>
      bind (np_dot (np_cols V i_min (im + 1)) y) (fun x =>
      np_add x (np_tile mean n_samples))))
  | _ => Err AssertionError
  end).

(** the observation operator of condition: a matrix, or an array of indices
    converted to a matrix (gmrf.py 1414-1423) *)
Inductive observation := Matrix (A : arr) | Indices (l : list nat).
Definition obs_matrix (n : nat) (A : observation) : res arr :=
  match A with
  | Matrix M => Ok M
  | Indices l => if forallb (fun i => i <? n)%nat l
                 then Ok (mkarr (length l) n (fun i j => mid (nth i l 0%nat) j))
                 else Err ValueError
  end.

(** the part of condition (hard constraint) common to both outputs: the matrix,
    Vk, Ak, mu_k, ek and the object K or Q (gmrf.py 1397-1470) *)
Inductive output := Sample | Field | OtherOutput.

(** condition(A, e, Ko=0, output, n_samples, z, mode) (gmrf.py 1379-1519) *)
Inductive conditioned := CSample (X : arr) | CField (f : field).

Definition cond_reduce (f : field) (A mu e : arr) : res (arr * arr * arr * arr) :=
  match g_supp f with
  | Some V =>
    bind (np_dot A V) (fun Ak =>
    bind (np_dot (np_T V) mu) (fun mu_k =>
    bind (gf_project f mu true) (fun p =>
    bind (np_dot A p) (fun Ap =>
    bind (np_sub e Ap) (fun ek => Ok (V, Ak, mu_k, ek))))))
  | None => Ok (mkarr (g_n f) (g_n f) mid, A, mu, e)
  end.
(** KAT and AKAT (gmrf.py 1457-1470); None: the mode is neither and the
    variables stay unbound *)
Definition cond_KAT (f : field) (Ak : arr) (md : mode) : res (option (arr * arr)) :=
  match md with
  | Covariance =>
    match g_cov f with
    | None => Err AssertionError
    | Some K => bind (spd_dot K (np_T Ak)) (fun KAT => bind (np_dot Ak KAT) (fun AKAT => Ok (Some (KAT, AKAT))))
    end
  | Precision =>
    match g_prec f with
    | None => Err AssertionError
    | Some Q => bind (spd_solve Q (np_T Ak)) (fun KAT => bind (np_dot Ak KAT) (fun AKAT => Ok (Some (KAT, AKAT))))
    end
  | _ => Ok None
  end.
(** the assertions that a matrix is specified come first (gmrf.py 1401-1406) *)
Definition cond_assert (f : field) (md : mode) : res unit :=
  match md with
  | Covariance => match g_cov f with None => Err AssertionError | _ => Ok tt end
  | Precision => match g_prec f with None => Err AssertionError | _ => Ok tt end
  | _ => Ok tt
  end.
(** output='sample' (gmrf.py 1473-1494) *)
Definition cond_sample (ls : solver) (f : field) (rnd : mat) (A e Vk : arr) (k : option (arr * arr))
  (n_samples : nat) (z : option arr) (md : mode) : res arr :=
  bind (gf_sample f rnd n_samples z md) (fun Xs =>
  bind (np_dot A Xs) (fun AX =>
  bind (np_sub AX e) (fun r =>
  match k with
  | None => Err NameError
  | Some (KAT, AKAT) =>
    bind (np_solve ls AKAT r) (fun U =>
    bind (np_dot KAT U) (fun KU =>
    bind (np_dot Vk KU) (fun c => np_sub Xs c)))
  end))).
(** output='field' (gmrf.py 1496-1516); with mode='precision' the variable K is unbound.
    K.get_matrix() is a dense array. *)
Definition cond_field (lx : lapack) (ls : solver) (f : field) (mu Vk Ak mu_k ek : arr)
  (k : option (arr * arr)) (md : mode) : res field :=
  bind (np_dot Ak mu_k) (fun Amu =>
  bind (np_sub Amu ek) (fun r =>
  match k with
  | None => Err NameError
  | Some (KAT, AKAT) =>
    bind (np_solve ls AKAT r) (fun s =>
    bind (np_dot KAT s) (fun Ks =>
    bind (np_dot Vk Ks) (fun c =>
    bind (np_sub mu c) (fun mu_cnd =>
    bind (np_solve ls AKAT (np_T KAT)) (fun U =>
    match md, g_cov f with
    | Covariance, Some K =>
      bind (np_dot KAT U) (fun KU =>
      bind (np_sub (spd_matrix K) KU) (fun K1 =>
      bind (np_dot K1 (np_T Vk)) (fun K2 =>
      bind (np_dot Vk K2) (fun K_cnd =>
      bind (gf_init lx (g_n f) (Some mu_cnd) None (Some (Arr K_cnd)) None None) (fun X =>
      gf_update_support X)))))
    | _, _ => Err NameError
    end)))))
  end)).
Definition gf_condition (lx : lapack) (ls : solver) (f : field) (rnd : mat) (A : observation) (e : arr)
  (out : output) (n_samples : nat) (z : option arr) (md : mode) : res conditioned :=
  bind (cond_assert f md) (fun _ =>
  bind (gf_mean f 0) (fun mu =>
  bind (obs_matrix (g_n f) A) (fun M =>
  bind (cond_reduce f M mu e) (fun p =>
  let '(Vk, Ak, mu_k, ek) := p in
  bind (cond_KAT f Ak md) (fun k =>
  match out with
  | Sample => bind (cond_sample ls f rnd M e Vk k n_samples z md) (fun X => Ok (CSample X))
  | Field => bind (cond_field lx ls f mu Vk Ak mu_k ek k md) (fun X => Ok (CField X))
  | OtherOutput => Err GenericException
  end))))).

(** condition with Ko <> 0 (gmrf.py 1521-1571): output='sample' passes the
    undefined name [decomposition]; output='field' adds an SPDMatrix object to an
    array (TypeError) or, in mode 'covariance', reads the unbound variable Q.
    [Ko] is an array. *)
Definition gf_condition_soft (ls : solver) (f : field) (A : observation) (e Ko : arr)
  (out : output) (md : mode) : res conditioned :=
  bind (cond_assert f md) (fun _ =>
  bind (gf_mean f 0) (fun mu =>
  bind (obs_matrix (g_n f) A) (fun M =>
  bind (cond_KAT f M md) (fun k =>
  match out with
  | Sample => Err NameError
  | Field =>
    bind (np_solve ls Ko e) (fun s =>
    bind (np_dot (np_T M) s) (fun c =>
    bind (np_sub mu c) (fun _ =>
    match md with
    | Precision =>
      bind (np_solve ls Ko M) (fun S => bind (np_dot (np_T M) S) (fun _ => Err TypeError))
    | _ => Err NameError
    end)))
  | OtherOutput => Err GenericException    (* the code falls through and returns None *)
  end)))).

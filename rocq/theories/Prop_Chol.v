(** * C54: CholeskyDecomposition

    [definite], [semidefinite], [square_root], [lower], [permutation] and the
    contracts [chol_ok], [cholmod_ok], [ldl_ok], [eigh_ok] of the routines of
    scipy and CHOLMOD are in SpecSpd.v. *)
From Coq Require Import List Arith Reals Lia Lra Psatz Setoid Morphisms.
From Verif Require Import Tree RMat Spd SpecSpd SpdFacts SpdTri SpdMod SpdChol Prop_Eig.
Import ListNotations.
Local Open Scope R_scope.

(** For a positive definite matrix, dense or sparse, every operation is exact. *)
Theorem C54_definite : forall lx n sparse C,
  factor_ok lx n sparse C -> definite n C ->
  exists c, chol_init lx n sparse C = Ok c /\
  chol_degenerate c = false /\ chol_is_sparse c = sparse /\
  (forall dg, meq n n (chol_reconstruct c dg) C) /\
  (forall m b b_sparse, meq n m (chol_dot c b b_sparse) (mmul n C b)) /\
  (forall b, exists x, chol_solve c b = Ok x /\ forall m, meq n m (mmul n C x) b) /\
  exists W, square_root n C W /\
    (forall m b, meq n m (chol_sqrt_dot c b false) (mmul n W b) /\
                 meq n m (chol_sqrt_dot c b true) (mmul n (mtr W) b)) /\
    (forall b, exists x, chol_sqrt_solve c b false = Ok x /\ forall m, meq n m (mmul n W x) b) /\
    (forall b, exists x, chol_sqrt_solve c b true = Ok x /\ forall m, meq n m (mmul n (mtr W) x) b).
Proof.
  intros lx n sparse C Hf Hd. unfold chol_init, factor_ok in *. destruct sparse.
  - destruct (lx_cholmod lx n C) as [[p L]|]; [|contradiction].
    destruct Hf as (H1 & H2 & H3 & H4).
    destruct (sparse_ok n C p L _ H1 H2 H3 H4 eq_refl) as (A1 & [A2 A3] & A4 & A5 & A6).
    eexists. split; [reflexivity|]. do 2 (split; [reflexivity|]). split; [exact A1|]. split; [|split; [exact A4|]].
    + intros m b sp. apply (dot_ok n); [reflexivity|]. exact (square_root_sym n C _ A2).
    + eexists. split; [exact A2|]. auto.
  - destruct (lx_chol lx n C) as [L|]; [|contradiction].
    destruct Hf as (H2 & H3 & H4).
    destruct (full_ok n C L _ H2 H3 H4 eq_refl) as (A1 & [A2 A3] & A4 & A5 & A6).
    eexists. split; [reflexivity|]. do 2 (split; [reflexivity|]). split; [exact A1|]. split; [|split; [exact A4|]].
    + intros m b sp. apply (dot_ok n); [reflexivity|]. exact (square_root_sym n C _ A2).
    + eexists. split; [exact A2|]. auto.
Qed.

(** is_degenerate() answers whether the matrix is not positive definite, and
    every symmetric matrix is accepted. *)
Theorem C54_indicator : forall lx n sparse C,
  factor_ok lx n sparse C -> symmetric n C ->
  exists c, chol_init lx n sparse C = Ok c /\ (chol_degenerate c = true <-> ~ definite n C) /\
    (chol_degenerate c = true -> chol_is_sparse c = false) /\
    forall m b b_sparse, meq n m (chol_dot c b b_sparse) (mmul n C b).
Proof.
  intros lx n sparse C Hf Hs. unfold chol_init, factor_ok, modchol_ldlt in *.
  rewrite (symmetric_close_ok n C Hs).
  destruct (lx_ldl lx n C) as [[L' D'] p'].
  destruct sparse.
  - destruct (lx_cholmod lx n C) as [[p L]|].
    + eexists. split; [reflexivity|]. destruct Hf as (H1 & H2 & H3 & H4). split; [split|split].
      * discriminate.
      * intros N. exfalso. apply N. exact (sparse_definite n p L C H1 H2 H3 H4).
      * discriminate.
      * intros. apply (dot_ok n); auto.
    + eexists. split; [reflexivity|]. split; [split; auto|split; [auto|]]. intros. apply (dot_ok n); auto.
  - destruct (lx_chol lx n C) as [L|].
    + eexists. split; [reflexivity|]. destruct Hf as (H2 & H3 & H4). split; [split|split].
      * discriminate.
      * intros N. exfalso. apply N. exact (full_definite n L C H2 H3 H4).
      * discriminate.
      * intros. apply (dot_ok n); auto.
    + eexists. split; [reflexivity|]. split; [split; auto|split; [auto|]]. intros. apply (dot_ok n); auto.
Qed.

(** The bound modchol_ldlt raises the eigenvalues of D to. *)
Definition mod_bound (n : nat) (C : mat) : R := sqrt eps_mach * fro n C.

Lemma modified_form : forall lx n sparse C c, chol_init lx n sparse C = Ok c -> chol_degenerate c = true ->
  forall L D0 p, lx_ldl lx n C = (L, D0, p) ->
  c = {| c_n := n; c_C := C; c_f := Modified L (modchol_loop lx n (mod_bound n C) D0 n 0 mid)
           (fun i j => mid i (p j)) D0 |}.
Proof.
  intros lx n sparse C c H Hd L D0 p E. unfold chol_init, modchol_ldlt in H. rewrite E in H.
  destruct sparse.
  - destruct (lx_cholmod lx n C) as [[q L']|]; [injection H as <-; discriminate|].
    destruct (symmetric_close n C); cbn in H; [injection H as <-; reflexivity|discriminate].
  - destruct (lx_chol lx n C) as [L'|]; [injection H as <-; discriminate|].
    destruct (symmetric_close n C); cbn in H; [injection H as <-; reflexivity|discriminate].
Qed.

(** The factors of a degenerate matrix: L D0 L' = C, and L D L' = C + E is
    positive definite with E positive semidefinite; E = 0 if D0 was already at
    least the bound. *)
Theorem C54_modified : forall lx n sparse C c L D0 p,
  chol_init lx n sparse C = Ok c -> chol_degenerate c = true ->
  lx_ldl lx n C = (L, D0, p) -> ldl_ok n C (L, D0, p) -> blocks_ok lx n D0 ->
  exists D E,
    c_f c = Modified L D (fun i j => mid i (p j)) D0 /\
    lower n (fun i j => L (p i) j) /\ (forall i, (i < n)%nat -> L (p i) i = 1) /\
    symmetric n D /\ bounded_below n D mid (mod_bound n C) /\
    meq n n (mmul n L (mmul n D0 (mtr L))) C /\
    meq n n (mmul n L (mmul n D (mtr L))) (madd C E) /\
    symmetric n E /\ semidefinite n E /\
    ((exists i j, (i < n)%nat /\ (j < n)%nat /\ C i j <> 0) -> definite n (madd C E)) /\
    (bounded_below n D0 mid (mod_bound n C) -> meq n n E mzero).
Proof.
  intros lx n sparse C c L D0 p H Hd E K B.
  rewrite (modified_form lx n sparse C c H Hd L D0 p E). cbn [c_f].
  eexists. exists (pert lx n C L D0). split; [reflexivity|].
  assert (K' := K). destruct K' as (K1 & K2 & K3 & K4 & K5 & K6 & K7).
  split; [exact K2|]. split; [exact K3|].
  split; [exact (D_sym lx n C L D0 p K B)|].
  split; [exact (D_bound lx n C L D0 p K B)|].
  split; [exact K7|]. split; [exact (LDL lx n C L D0 p K)|].
  split; [exact (pert_sym lx n C L D0 p K B)|]. split; [exact (pert_psd lx n C L D0 p K B)|].
  split.
  - intros Hc. exact (LDL_definite lx n C L D0 p K B (fro_pos n C Hc)).
  - exact (pert_zero lx n C L D0 p K B).
Qed.

(** What reconstruct() and sqrt_dot() return for a degenerate matrix: they stand
    for the matrix with rows and columns permuted by the pivoting. *)
Theorem C54_permuted : forall lx n sparse C c L D0 p,
  chol_init lx n sparse C = Ok c -> chol_degenerate c = true ->
  lx_ldl lx n C = (L, D0, p) -> ldl_ok n C (L, D0, p) -> blocks_ok lx n D0 ->
  (exists i j, (i < n)%nat /\ (j < n)%nat /\ C i j <> 0) ->
  exists E, symmetric n E /\ semidefinite n E /\ definite n (madd C E) /\
    meq n n (chol_reconstruct c true) (fun i j => C (p i) (p j)) /\
    meq n n (chol_reconstruct c false) (fun i j => madd C E (p i) (p j)) /\
    ((forall i j, (i < n)%nat -> (j < n)%nat -> i <> j -> D0 i j = 0) ->
     exists W, square_root n (fun i j => madd C E (p i) (p j)) W /\
       forall m b, meq n m (chol_sqrt_dot c b false) (mmul n W b) /\
                   meq n m (chol_sqrt_dot c b true) (mmul n (mtr W) b)).
Proof.
  intros lx n sparse C c L D0 p H Hd E K B Hc.
  rewrite (modified_form lx n sparse C c H Hd L D0 p E). pose proof (fro_pos n C Hc) as Hf.
  exists (pert lx n C L D0).
  split; [exact (pert_sym lx n C L D0 p K B)|]. split; [exact (pert_psd lx n C L D0 p K B)|].
  split; [exact (LDL_definite lx n C L D0 p K B Hf)|].
  destruct (reconstruct_mod lx n C L D0 p K) as [R1 R2].
  split; [exact R1|]. split; [exact R2|].
  intros Hdiag. exists (Wm lx n C L D0 p).
  destruct (root_mod lx n C L D0 p K B Hdiag Hf) as [S1 S2]. split; [exact S1|exact S2].
Qed.

(** solve() on a degenerate matrix: a solution of (C + E)x = b, if the pivoting
    is an involution (in particular if there is none) and D0 has no 2-by-2 block. *)
Theorem C54_modified_solve_partial : forall lx n sparse C c L D0 p,
  chol_init lx n sparse C = Ok c -> chol_degenerate c = true ->
  lx_ldl lx n C = (L, D0, p) -> ldl_ok n C (L, D0, p) ->
  (exists i j, (i < n)%nat /\ (j < n)%nat /\ C i j <> 0) ->
  (forall i j, (i < n)%nat -> (j < n)%nat -> i <> j -> D0 i j = 0) ->
  (forall i, (i < n)%nat -> p (p i) = i) ->
  exists E, symmetric n E /\ semidefinite n E /\ definite n (madd C E) /\
    forall b, exists x, chol_solve c b = Ok x /\ forall m, meq n m (mmul n (madd C E) x) b.
Proof.
  intros lx n sparse C c L D0 p H Hd E K Hc Hdiag Hinv.
  assert (B : blocks_ok lx n D0). { intros k Hk N. exfalso. apply N. apply Hdiag; lia. }
  rewrite (modified_form lx n sparse C c H Hd L D0 p E). pose proof (fro_pos n C Hc) as Hf.
  exists (pert lx n C L D0).
  split; [exact (pert_sym lx n C L D0 p K B)|]. split; [exact (pert_psd lx n C L D0 p K B)|].
  split; [exact (LDL_definite lx n C L D0 p K B Hf)|].
  exact (solve_mod lx n C L D0 p K B Hdiag Hf Hinv).
Qed.

(** Without pivoting and without 2-by-2 blocks: reconstruct, solve, sqrt_dot and
    the transposed sqrt_solve are right for C + E. *)
Theorem C54_unpivoted_partial : forall lx n sparse C c L D0 p,
  chol_init lx n sparse C = Ok c -> chol_degenerate c = true ->
  lx_ldl lx n C = (L, D0, p) -> ldl_ok n C (L, D0, p) ->
  (exists i j, (i < n)%nat /\ (j < n)%nat /\ C i j <> 0) ->
  (forall i j, (i < n)%nat -> (j < n)%nat -> i <> j -> D0 i j = 0) ->
  (forall i, (i < n)%nat -> p i = i) ->
  exists E W, symmetric n E /\ semidefinite n E /\ definite n (madd C E) /\
    meq n n (chol_reconstruct c true) C /\ meq n n (chol_reconstruct c false) (madd C E) /\
    (forall b, exists x, chol_solve c b = Ok x /\ forall m, meq n m (mmul n (madd C E) x) b) /\
    square_root n (madd C E) W /\
    (forall m b, meq n m (chol_sqrt_dot c b false) (mmul n W b) /\
                 meq n m (chol_sqrt_dot c b true) (mmul n (mtr W) b)) /\
    (forall b, exists x, chol_sqrt_solve c b true = Ok x /\ forall m, meq n m (mmul n (mtr W) x) b).
Proof.
  intros lx n sparse C c L D0 p H Hd E K Hc Hdiag Hid.
  assert (B : blocks_ok lx n D0). { intros k Hk N. exfalso. apply N. apply Hdiag; lia. }
  assert (Hinv : forall i, (i < n)%nat -> p (p i) = i) by (intros; rewrite !Hid; auto; rewrite Hid; auto).
  rewrite (modified_form lx n sparse C c H Hd L D0 p E). pose proof (fro_pos n C Hc) as Hf.
  exists (pert lx n C L D0), (Wm lx n C L D0 p).
  split; [exact (pert_sym lx n C L D0 p K B)|]. split; [exact (pert_psd lx n C L D0 p K B)|].
  split; [exact (LDL_definite lx n C L D0 p K B Hf)|].
  destruct (reconstruct_mod lx n C L D0 p K) as [R1 R2].
  destruct (root_mod lx n C L D0 p K B Hdiag Hf) as [S1 S2].
  assert (Pe : forall A, meq n n (fun i j => A (p i) (p j)) A) by (intros A i j Hi Hj; rewrite !Hid; auto).
  unfold mod_bound in *.
  split; [etransitivity; [exact R1|apply Pe]|]. split; [etransitivity; [exact R2|apply (Pe (madd C (pert lx n C L D0)))]|].
  split; [exact (solve_mod lx n C L D0 p K B Hdiag Hf Hinv)|].
  split; [unfold square_root in *; etransitivity; [exact S1|apply (Pe (madd C (pert lx n C L D0)))]|].
  split; [exact S2|].
  exact (sqrt_solve_mod lx n C L D0 p K B Hdiag Hf Hid).
Qed.

(** ** What is not true *)
Definition lx_ldl_const (r : mat * mat * (nat -> nat)) (e : (nat -> R) * mat) : lapack :=
  {| lx_eigh := fun _ _ _ => e; lx_chol := fun _ _ => None; lx_cholmod := fun _ _ => None;
     lx_ldl := fun _ _ => r |}.

(** C = [[1,2],[2,4]], singular; LAPACK pivots on the entry 4 *)
Definition C4 : mat := two 1 2 2 4.
Definition p4 : nat -> nat := fun i => match i with O => 1%nat | _ => O end.
Definition L4 : mat := two (/ 2) 1 1 0.
Definition D4 : mat := two 4 0 0 0.

Lemma C4_ldl : ldl_ok 2 C4 (L4, D4, p4).
Proof.
  unfold ldl_ok. split; [split|split; [|split; [|split; [|split; [|split]]]]].
  - intros i Hi. destruct i as [|[|i]]; cbn; lia.
  - intros i j Hi Hj. destruct i as [|[|i]]; [| |lia]; destruct j as [|[|j]]; try lia; cbn; intros; lia.
  - intros i j Hi Hj Hij. destruct i as [|[|i]]; [| |lia]; destruct j as [|[|j]]; try lia; reflexivity.
  - intros i Hi. destruct i as [|[|i]]; [| |lia]; reflexivity.
  - idx2; reflexivity.
  - intros; lia.
  - intros; lia.
  - idx2; unfold mmul, mtr, L4, D4, C4, two; cbn; lra.
Qed.

Lemma C4_chol : chol_ok 2 C4 None.
Proof.
  intros H. specialize (H (vec2 2 (-1))). 
  assert (0 < qf 2 C4 (vec2 2 (-1))) by (apply H; exists O; split; [lia|cbn; lra]).
  unfold qf, C4, two, vec2 in H0. cbn in H0. lra.
Qed.

Lemma C4_psd : semidefinite 2 C4.
Proof.
  intros x. unfold qf, C4, two. cbn [sum].
  match goal with |- 0 <= ?e => replace e with ((x O + 2 * x 1%nat) * (x O + 2 * x 1%nat)) by ring end.
  apply Rle_0_sqr.
Qed.

Lemma fro_C4 : fro 2 C4 = 5.
Proof.
  unfold fro, sum, C4, two. match goal with |- sqrt ?x = 5 => replace x with (5 * 5) by lra end.
  apply sqrt_square. lra.
Qed.
Lemma p26 : 0 < / 2 ^ 26 < / 1000.
Proof.
  split; [apply Rinv_0_lt_compat, pow_lt; lra|].
  apply Rinv_lt_contravar; [apply Rmult_lt_0_compat; [lra|apply pow_lt; lra]|simpl; lra].
Qed.

(** The reconstructed matrix, of the original (degenerate=True) or of the
    perturbed matrix, and the square root, are those of another matrix; the
    bound of the perturbation is below 1/100, the error is 3. *)
Theorem C54_reconstruct_refuted : exists lx n C c L D0 p,
  chol_init lx n false C = Ok c /\ chol_degenerate c = true /\
  lx_ldl lx n C = (L, D0, p) /\ ldl_ok n C (L, D0, p) /\ chol_ok n C (lx_chol lx n C) /\ semidefinite n C /\
  mod_bound n C < / 100 /\
  chol_reconstruct c true O O - C O O = 3 /\
  3 <= chol_reconstruct c false O O - C O O /\
  3 <= chol_sqrt_dot c (chol_sqrt_dot c mid true) false O O - C O O.
Proof.
  exists (lx_ldl_const (L4, D4, p4) (fun _ => 0, mzero)), 2%nat, C4.
  pose proof p26 as P26.
  assert (Mb : mod_bound 2 C4 = / 2 ^ 26 * 5) by (unfold mod_bound; rewrite fro_C4, sqrt_eps; reflexivity).
  assert (S : symmetric_close 2 C4 = true).
  { apply symmetric_close_ok. idx2; reflexivity. }
  assert (Ec : exists c, chol_init (lx_ldl_const (L4, D4, p4) (fun _ => 0, mzero)) 2 false C4 = Ok c /\ chol_degenerate c = true).
  { unfold chol_init, modchol_ldlt. cbn [lx_chol lx_ldl lx_ldl_const]. rewrite S. eexists. split; reflexivity. }
  destruct Ec as [c [Ec Dc]].
  exists c, L4, D4, p4. split; [exact Ec|]. split; [exact Dc|]. split; [reflexivity|]. split; [exact C4_ldl|].
  split; [exact C4_chol|]. split; [exact C4_psd|]. split; [rewrite Mb; lra|].
  assert (Hdiag : forall i j, (i < 2)%nat -> (j < 2)%nat -> i <> j -> D4 i j = 0).
  { intros i j Hi Hj N. destruct i as [|[|i]]; [| |lia]; destruct j as [|[|j]]; try lia; try reflexivity. }
  assert (B : blocks_ok (lx_ldl_const (L4, D4, p4) (fun _ => 0, mzero)) 2 D4).
  { intros k Hk N. exfalso. apply N. apply Hdiag; lia. }
  assert (Hc : exists i j, (i < 2)%nat /\ (j < 2)%nat /\ C4 i j <> 0).
  { exists O, O. split; [lia|]. split; [lia|]. unfold C4, two. lra. }
  destruct (C54_permuted _ 2 false C4 c L4 D4 p4 Ec Dc eq_refl C4_ldl B Hc) as (E & E1 & E2 & _ & R1 & R2 & R3).
  assert (E11 : 0 <= E 1%nat 1%nat).
  { specialize (E2 (vec2 0 1)). unfold qf, vec2 in E2. cbn [sum] in E2. lra. }
  split; [|split].
  - rewrite R1 by lia. unfold C4, two, p4. lra.
  - rewrite R2 by lia. unfold madd, p4. unfold C4, two at 1 2. lra.
  - destruct (R3 Hdiag) as (W & W1 & W2).
    assert (Q : meq 2 2 (chol_sqrt_dot c (chol_sqrt_dot c mid true) false) (fun i j => madd C4 E (p4 i) (p4 j))).
    { rewrite (proj1 (W2 2%nat (chol_sqrt_dot c mid true))).
      rewrite (proj2 (W2 2%nat mid)). rewrite mmul_id_r. exact W1. }
    rewrite Q by lia. unfold madd, p4. unfold C4, two at 1 2. lra.
Qed.

(** C = [[1,1],[1,1]]: no pivoting.  sqrt_solve(b) reads the wrong triangle, so
    sqrt_dot(sqrt_solve(b)) is not b. *)
Definition C5 : mat := two 1 1 1 1.
Definition L5 : mat := two 1 0 1 1.
Definition D5 : mat := two 1 0 0 0.
Definition id5 : nat -> nat := fun i => i.
Lemma C5_ldl : ldl_ok 2 C5 (L5, D5, id5).
Proof.
  unfold ldl_ok, id5. split; [split; auto|split; [|split; [|split; [|split; [|split]]]]].
  - intros i j Hi Hj Hij. destruct i as [|[|i]]; [| |lia]; destruct j as [|[|j]]; try lia. reflexivity.
  - intros i Hi. destruct i as [|[|i]]; [| |lia]; reflexivity.
  - idx2; reflexivity.
  - intros; lia.
  - intros; lia.
  - idx2; unfold mmul, mtr, L5, D5, C5, two; cbn; lra.
Qed.
Lemma C5_chol : chol_ok 2 C5 None.
Proof.
  intros H. specialize (H (vec2 1 (-1))).
  assert (0 < qf 2 C5 (vec2 1 (-1))) by (apply H; exists O; split; [lia|cbn; lra]).
  unfold qf, C5, two, vec2 in H0. cbn in H0. lra.
Qed.
Lemma fro_C5 : fro 2 C5 = 2.
Proof.
  unfold fro, sum, C5, two. match goal with |- sqrt ?x = 2 => replace x with (2 * 2) by lra end.
  apply sqrt_square. lra.
Qed.
Lemma C5_hyps : exists c, chol_init (lx_ldl_const (L5, D5, id5) (fun _ => 0, mzero)) 2 false C5 = Ok c /\
  chol_degenerate c = true /\ ldl_ok 2 C5 (L5, D5, id5) /\ chol_ok 2 C5 None /\
  (exists i j, (i < 2)%nat /\ (j < 2)%nat /\ C5 i j <> 0) /\
  (forall i j, (i < 2)%nat -> (j < 2)%nat -> i <> j -> D5 i j = 0) /\ (forall i, (i < 2)%nat -> id5 i = i).
Proof.
  assert (S : symmetric_close 2 C5 = true) by (apply symmetric_close_ok; idx2; reflexivity).
  unfold chol_init, modchol_ldlt. cbn [lx_chol lx_ldl lx_ldl_const]. rewrite S. eexists.
  split; [reflexivity|]. split; [reflexivity|]. split; [exact C5_ldl|]. split; [exact C5_chol|].
  split; [exists O, O; split; [lia|]; split; [lia|]; unfold C5, two; lra|]. split; [|auto].
  intros i j Hi Hj N. destruct i as [|[|i]]; [| |lia]; destruct j as [|[|j]]; try lia; try reflexivity.
Qed.

Theorem C54_sqrt_solve_refuted : exists lx n C c L D0 p b x,
  chol_init lx n false C = Ok c /\ lx_ldl lx n C = (L, D0, p) /\ ldl_ok n C (L, D0, p) /\
  chol_ok n C (lx_chol lx n C) /\ (forall i, (i < n)%nat -> p i = i) /\
  chol_sqrt_solve c b false = Ok x /\ ~ meq n 1 (chol_sqrt_dot c x false) b.
Proof.
  destruct C5_hyps as (c & Ec & Dc & H1 & H2 & H3 & H4 & H5).
  pose proof p26 as P26.
  assert (Mb : mod_bound 2 C5 = / 2 ^ 26 * 2) by (unfold mod_bound; rewrite fro_C5, sqrt_eps; reflexivity).
  exists (lx_ldl_const (L5, D5, id5) (fun _ => 0, mzero)), 2%nat, C5, c, L5, D5, id5, (col (vec2 1 0)).
  pose proof (modified_form _ _ _ _ _ Ec Dc L5 D5 id5 eq_refl) as Ef.
  set (D := modchol_loop (lx_ldl_const (L5, D5, id5) (fun _ => 0, mzero)) 2 (mod_bound 2 C5) D5 2 0 mid) in Ef.
  assert (B : blocks_ok (lx_ldl_const (L5, D5, id5) (fun _ => 0, mzero)) 2 D5).
  { intros k Hk N. exfalso. apply N. apply H4; lia. }
  pose proof (proj1 (proj2 (proj2 (proj2 (loop0 (lx_ldl_const (L5, D5, id5) (fun _ => 0, mzero)) 2 C5 L5 D5 id5 H1 B)))) H4) as ED.
  fold (mod_bound 2 C5) in ED. fold D in ED. clearbody D.
  assert (D00 : D O O = 1).
  { rewrite ED by lia. unfold mdiag. cbn [Nat.eqb]. rewrite Mb. unfold D5, two. destruct (Rle_dec 1 (/ 2 ^ 26 * 2)); lra. }
  assert (D11 : D 1%nat 1%nat = / 2 ^ 26 * 2).
  { rewrite ED by lia. unfold mdiag. cbn [Nat.eqb]. rewrite Mb. unfold D5, two. destruct (Rle_dec 0 (/ 2 ^ 26 * 2)); lra. }
  assert (S1 : 0 < sqrt (D 1%nat 1%nat)) by (apply sqrt_lt_R0; rewrite D11; lra).
  assert (S0 : sqrt (D O O) = 1) by (rewrite D00; apply sqrt_1).
  set (A := mmul 2 L5 (mdiag (fun i => sqrt (D i i)))).
  assert (A00 : A O O = 1). { unfold A, mmul, mdiag, L5, two. cbn. rewrite S0. ring. }
  assert (A11 : A 1%nat 1%nat = sqrt (D 1%nat 1%nat)). { unfold A, mmul, mdiag, L5, two. cbn. ring. }
  assert (A01 : A O 1%nat = 0). { unfold A, mmul, mdiag, L5, two. cbn. ring. }
  assert (A10 : A 1%nat O = 1). { unfold A, mmul, mdiag, L5, two. cbn. rewrite S0. ring. }
  assert (G : has_zero 2 (fun i => A i i) = false).
  { apply has_zero_false. intros i Hi. destruct i as [|[|i]]; [| |lia]; [rewrite A00|rewrite A11]; lra. }
  eexists. split; [exact Ec|]. split; [reflexivity|]. split; [exact H1|]. split; [exact H2|]. split; [exact H5|]. split.
  - rewrite Ef. cbn [chol_sqrt_solve c_f c_n]. fold A. unfold solve_triangular. rewrite G. cbn [negb andb]. reflexivity.
  - intros Q. specialize (Q 1%nat O ltac:(lia) ltac:(lia)). rewrite Ef in Q. cbn [chol_sqrt_dot c_f c_n] in Q.
    unfold flip1, flip2, fwd, mmul, mtr, mid, id5, col, vec2 in Q. fold A in Q. cbn [sum Nat.eqb Nat.sub mdiag] in Q.
    rewrite A00, A01, A11, S0 in Q.
    replace ((0 + 0 * 1 + 1 * 0 - 0) / sqrt (D 1%nat 1%nat)) with 0 in Q by (unfold Rdiv; ring).
    unfold L5, two in Q. lra.
Qed.

(** C = [[0,1],[1,0]]: no pivoting, D0 = C is one 2-by-2 block.  solve() and
    sqrt_dot() use the diagonal of D only: solve(b) does not solve
    (L D L')x = b and sqrt_dot(sqrt_dot(I,transpose=True)) is not L D L'. *)
Definition C6 : mat := two 0 1 1 0.
Definition r6 : (nat -> R) * mat := (vec2 (-1) 1, two s2 s2 (- s2) s2).
Lemma C6_eigh : eigh_ok 2 C6 None r6.
Proof.
  pose proof s2_sq as Q. unfold eigh_ok, r6. split; [|split].
  - intros i j Hij Hj. destruct j as [|[|j]]; [| |lia]; destruct i as [|[|i]]; try lia; unfold vec2; lra.
  - idx2; unfold mmul, mtr, mass, mid, two; cbn [sum Nat.eqb]; lra.
  - idx2; unfold mmul, mdiag, C6, mass, mid, two, vec2; cbn [sum Nat.eqb]; lra.
Qed.
Lemma C6_ldl : ldl_ok 2 C6 (mid, C6, id5).
Proof.
  unfold ldl_ok, id5. split; [split; auto|split; [|split; [|split; [|split; [|split]]]]].
  - intros i j Hi Hj Hij. destruct i as [|[|i]]; [| |lia]; destruct j as [|[|j]]; try lia; reflexivity.
  - intros i Hi. destruct i as [|[|i]]; [| |lia]; reflexivity.
  - idx2; reflexivity.
  - intros; lia.
  - intros; lia.
  - idx2; unfold mmul, mtr, mid, C6, two; cbn [sum Nat.eqb]; lra.
Qed.
Lemma C6_chol : chol_ok 2 C6 None.
Proof.
  intros H. specialize (H (vec2 1 (-1))).
  assert (X : 0 < qf 2 C6 (vec2 1 (-1))) by (apply H; exists O; split; [lia|unfold vec2; lra]).
  unfold qf, C6, two, vec2 in X. cbn [sum] in X. lra.
Qed.
Lemma C6_bound : 0 < mod_bound 2 C6 < / 100.
Proof.
  pose proof p26 as P. unfold mod_bound. rewrite sqrt_eps.
  assert (F : 1 < fro 2 C6 < 2).
  { unfold fro, sum, C6, two. replace (0 + (0 + 0 * 0 + 1 * 1) + (0 + 1 * 1 + 0 * 0)) with 2 by ring.
    pose proof (sqrt_sqrt 2 ltac:(lra)) as Q. pose proof (sqrt_lt_R0 2 ltac:(lra)) as P0. split; nra. }
  split; [apply Rmult_lt_0_compat; lra|].
  assert (/ 2 ^ 26 * fro 2 C6 < / 1000 * 2) by (apply Rmult_gt_0_lt_compat; lra). lra.
Qed.
Definition lx6 : lapack := lx_ldl_const (mid, C6, id5) r6.
Lemma C6_blocks : blocks_ok lx6 2 C6.
Proof.
  intros k Hk _. assert (k = 0)%nat as -> by lia. exact C6_eigh.
Qed.

Theorem C54_block_refuted : exists lx n C c L D D0 p b x,
  chol_init lx n false C = Ok c /\ lx_ldl lx n C = (L, D0, p) /\ ldl_ok n C (L, D0, p) /\
  chol_ok n C (lx_chol lx n C) /\ blocks_ok lx n D0 /\ (forall i, (i < n)%nat -> p i = i) /\
  c_f c = Modified L D (fun i j => mid i (p j)) D0 /\
  chol_solve c b = Ok x /\
  ~ meq n 1 (mmul n (mmul n L (mmul n D (mtr L))) x) b /\
  ~ meq n n (chol_sqrt_dot c (chol_sqrt_dot c mid true) false) (mmul n L (mmul n D (mtr L))).
Proof.
  pose proof C6_bound as Hb. set (dl := mod_bound 2 C6) in *.
  assert (S : symmetric_close 2 C6 = true) by (apply symmetric_close_ok; idx2; reflexivity).
  assert (Ec : exists c, chol_init lx6 2 false C6 = Ok c /\ chol_degenerate c = true).
  { unfold chol_init, modchol_ldlt. cbn [lx_chol lx_ldl lx_ldl_const lx6]. rewrite S. eexists. split; reflexivity. }
  destruct Ec as [c [Ec Dc]].
  pose proof (modified_form _ _ _ _ _ Ec Dc mid C6 id5 eq_refl) as Ef. fold dl in Ef.
  set (D := modchol_loop lx6 2 dl C6 2 0 mid) in Ef.
  assert (HD : meq 2 2 D (two ((1 + dl) / 2) ((1 - dl) / 2) ((1 - dl) / 2) ((1 + dl) / 2))).
  { pose proof s2_sq as Q. unfold D, modchol_loop, lx6, lx_ldl_const, r6. cbn [Nat.ltb Nat.leb Nat.eqb Nat.sub orb lx_eigh Nat.add].
    destruct (Req_EM_T (C6 O 1%nat) 0) as [Z0|Z0]; [unfold C6, two in Z0; lra|]. cbn [orb].
    unfold vec2, setblock2, mmul, mdiag, mtr, two.
    idx2; cbn [Nat.leb Nat.ltb Nat.add Nat.sub andb sum Nat.eqb];
      (destruct (Rle_dec (-1) dl) as [N1|N1]; [|lra]); (destruct (Rle_dec 1 dl) as [N2|N2]; [lra|]);
      match goal with |- ?l = ?r => transitivity (s2 * s2 * (2 * r)); [field|rewrite Q; field] end. }
  clearbody D.
  exists lx6, 2%nat, C6, c, mid, D, C6, id5, (col (vec2 1 0)).
  eexists. split; [exact Ec|]. split; [reflexivity|]. split; [exact C6_ldl|]. split; [exact C6_chol|].
  split; [exact C6_blocks|]. split; [reflexivity|]. split; [rewrite Ef; reflexivity|].
  pose proof (HD O O ltac:(lia) ltac:(lia)) as D00. pose proof (HD O 1%nat ltac:(lia) ltac:(lia)) as D01.
  pose proof (HD 1%nat O ltac:(lia) ltac:(lia)) as D10. pose proof (HD 1%nat 1%nat ltac:(lia) ltac:(lia)) as D11.
  unfold two in D00, D01, D10, D11.
  split; [|split].
  - rewrite Ef. cbn [chol_solve c_f c_n]. unfold solve_triangular. cbn [negb andb bind]. reflexivity.
  - intros Q. specialize (Q 1%nat O ltac:(lia) ltac:(lia)).
    unfold flip1, flip2, fwd, mmul, mtr, mid, id5, col, vec2, mdiag in Q. cbn [sum Nat.eqb Nat.sub] in Q.
    rewrite D00, D01, D10, D11 in Q. unfold Rdiv in Q.
    rewrite ?Rmult_0_l, ?Rmult_0_r, ?Rplus_0_l, ?Rplus_0_r, ?Rmult_1_l, ?Rmult_1_r, ?Rminus_0_r, ?Rinv_1, ?Rmult_0_l, ?Rmult_0_r, ?Rplus_0_l, ?Rplus_0_r, ?Rmult_1_l, ?Rmult_1_r, ?Rminus_0_r in Q.
    rewrite ?Rmult_0_r, ?Rplus_0_r in Q.
    assert (X : 0 < (1 - dl) * / 2 * / ((1 + dl) * / 2)); [|lra].
    apply Rmult_lt_0_compat; [lra|]. apply Rinv_0_lt_compat. lra.
  - intros Q. specialize (Q O 1%nat ltac:(lia) ltac:(lia)). rewrite Ef in Q. cbn [chol_sqrt_dot c_f c_n] in Q.
    unfold mmul, mtr, mid, id5, mdiag in Q. cbn [sum Nat.eqb] in Q. rewrite D01 in Q.
    rewrite ?Rmult_0_l, ?Rmult_0_r, ?Rplus_0_l, ?Rplus_0_r, ?Rmult_1_l, ?Rmult_1_r in Q. lra.
Qed.

(** ** The hypotheses are met *)

(** C = [[4,2],[2,5]] = LL', L = [[2,0],[1,2]]; in the ordering (1,0) the factor
    is [[sqrt 5,0],[2/sqrt 5,4/sqrt 5]] *)
Definition C7 : mat := two 4 2 2 5.
Definition L7 : mat := two 2 0 1 2.
Definition L7s : mat := two (sqrt 5) 0 (2 / sqrt 5) (4 / sqrt 5).
Definition lx7 : lapack :=
  {| lx_eigh := fun _ _ _ => (fun _ => 0, mzero); lx_chol := fun _ _ => Some L7;
     lx_cholmod := fun _ _ => Some (p4, L7s); lx_ldl := fun _ _ => (mid, mzero, id5) |}.

Example C54_definite_case : definite 2 C7 /\ forall sparse, factor_ok lx7 2 sparse C7.
Proof.
  split.
  - intros x (i & Hi & Hx). unfold qf, C7, two. cbn [sum].
    assert (Y : 0 < x O * x O + x 1%nat * x 1%nat).
    { destruct i as [|[|i]]; [| |lia]; nra. }
    nra.
  - assert (S5 : 0 < sqrt 5) by (apply sqrt_lt_R0; lra).
    assert (Q5 : sqrt 5 * sqrt 5 = 5) by (apply sqrt_sqrt; lra).
    intros [|]; unfold factor_ok; cbn [lx7 lx_cholmod lx_chol].
    + split; [exact (proj1 C4_ldl)|]. split; [|split].
      * intros i j Hi Hj Hij. destruct i as [|[|i]]; [| |lia]; destruct j as [|[|j]]; try lia. reflexivity.
      * intros i Hi. destruct i as [|[|i]]; [| |lia]; unfold L7s, two; [lra|].
        apply Rdiv_lt_0_compat; lra.
      * idx2; unfold mmul, mtr, L7s, C7, two, p4; cbn [sum].
        -- rewrite Q5. ring.
        -- field. lra.
        -- field. lra.
        -- replace (0 + 2 / sqrt 5 * (2 / sqrt 5) + 4 / sqrt 5 * (4 / sqrt 5)) with (20 / (sqrt 5 * sqrt 5)) by (field; lra).
           rewrite Q5. field.
    + split; [|split].
      * intros i j Hi Hj Hij. destruct i as [|[|i]]; [| |lia]; destruct j as [|[|j]]; try lia. reflexivity.
      * intros i Hi. destruct i as [|[|i]]; [| |lia]; unfold L7, two; lra.
      * idx2; unfold mmul, mtr, L7, C7, two; cbn [sum]; ring.
Qed.

(** C54_indicator, C54_modified, C54_permuted: a singular matrix with pivoting
    and an indefinite one with a 2-by-2 block *)
Example C54_pivoted_case : exists c,
  chol_init (lx_ldl_const (L4, D4, p4) r6) 2 true C4 = Ok c /\ chol_degenerate c = true /\
  factor_ok (lx_ldl_const (L4, D4, p4) r6) 2 true C4 /\ symmetric 2 C4 /\
  ldl_ok 2 C4 (L4, D4, p4) /\ blocks_ok (lx_ldl_const (L4, D4, p4) r6) 2 D4 /\
  (exists i j, (i < 2)%nat /\ (j < 2)%nat /\ C4 i j <> 0) /\
  (forall i j, (i < 2)%nat -> (j < 2)%nat -> i <> j -> D4 i j = 0) /\
  (forall i, (i < 2)%nat -> p4 (p4 i) = i).
Proof.
  assert (S : symmetric 2 C4) by (idx2; reflexivity).
  unfold chol_init, modchol_ldlt. cbn [lx_cholmod lx_ldl lx_ldl_const]. rewrite (symmetric_close_ok 2 C4 S). eexists.
  assert (Hdiag : forall i j, (i < 2)%nat -> (j < 2)%nat -> i <> j -> D4 i j = 0).
  { intros i j Hi Hj N. destruct i as [|[|i]]; [| |lia]; destruct j as [|[|j]]; try lia; try reflexivity. }
  split; [reflexivity|]. split; [reflexivity|]. split; [exact C4_chol|]. split; [exact S|]. split; [exact C4_ldl|].
  split; [intros k Hk N; exfalso; apply N; apply Hdiag; lia|].
  split; [exists O, O; split; [lia|]; split; [lia|]; unfold C4, two; lra|]. split; [exact Hdiag|].
  intros i Hi. destruct i as [|[|i]]; [| |lia]; reflexivity.
Qed.
Example C54_block_case : exists c,
  chol_init lx6 2 false C6 = Ok c /\ chol_degenerate c = true /\ ldl_ok 2 C6 (mid, C6, id5) /\ blocks_ok lx6 2 C6 /\
  (exists i j, (i < 2)%nat /\ (j < 2)%nat /\ C6 i j <> 0).
Proof.
  unfold chol_init, modchol_ldlt. cbn [lx_chol lx_ldl lx_ldl_const lx6].
  rewrite (symmetric_close_ok 2 C6) by (idx2; reflexivity). eexists.
  split; [reflexivity|]. split; [reflexivity|]. split; [exact C6_ldl|]. split; [exact C6_blocks|].
  exists O, 1%nat. split; [lia|]. split; [lia|]. unfold C6, two. lra.
Qed.
(** C54_unpivoted_partial *)
Example C54_unpivoted_case := C5_hyps.

Print Assumptions C54_definite.
Print Assumptions C54_indicator.
Print Assumptions C54_modified.
Print Assumptions C54_permuted.
Print Assumptions C54_modified_solve_partial.
Print Assumptions C54_unpivoted_partial.
Print Assumptions C54_reconstruct_refuted.
Print Assumptions C54_sqrt_solve_refuted.
Print Assumptions C54_block_refuted.

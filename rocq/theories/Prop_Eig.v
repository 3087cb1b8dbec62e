(** * C53: EigenDecomposition

    [semidefinite], [bounded_below], [eigenvalue], [square_root],
    [least_squares], [orthonormal_basis], [kernel], [image] and the contract
    [eigh_ok] of scipy.linalg.eigh are in SpecSpd.v. *)
From Coq Require Import List Arith Reals Lia Lra Psatz Setoid Morphisms.
From Verif Require Import Tree RMat Spd SpecSpd SpdFacts SpdEig SpdKer.
Import ListNotations.
Local Open Scope R_scope.

Local Ltac start H K := destruct (eig_init_wf _ _ _ _ _ _ H K) as (En & EC & EM & Ed & mu & W).

(** The constructor succeeds exactly when the bound is non-negative, and always
    with the default bound. *)
Theorem C53_total : forall lx n C M,
  (exists e, eig_init lx n C M None = Ok e) /\
  (forall delta, 0 <= delta -> exists e, eig_init lx n C M (Some delta) = Ok e) /\
  (forall delta, delta < 0 -> eig_init lx n C M (Some delta) = Err AssertionError).
Proof.
  intros. split; [|split].
  - apply eig_init_ok, default_bound_nonneg.
  - intros. apply eig_init_ok. exact H.
  - intros. unfold eig_init. cbn. destruct (Rle_dec 0 delta); [lra|reflexivity].
Qed.

(** The stored values decrease and are at least the bound; the stored vectors
    are M-orthonormal eigenvectors, whose eigenvalue is the stored value unless
    it was raised to the bound. *)
Theorem C53_eigenpairs : forall lx n C M delta e,
  eig_init lx n C M delta = Ok e -> eigh_ok n C M (lx_eigh lx n C M) ->
  (forall i j, (i <= j)%nat -> (j < n)%nat -> e_d e j <= e_d e i) /\
  (forall i, (i < n)%nat -> eig_bound n C delta <= e_d e i) /\
  meq n n (mmul n (mtr (e_V e)) (mmul n (mass M) (e_V e))) mid /\
  (forall k, (k < n)%nat -> exists lambda,
     (forall i, (i < n)%nat -> mv n C (fun a => e_V e a k) i = lambda * mv n (mass M) (fun a => e_V e a k) i) /\
     e_d e k = Rmax lambda (eig_bound n C delta)).
Proof.
  intros lx n C M delta e H K. start H K. rewrite <- Ed.
  destruct W as [W1 W2 W3 W4 W5]. rewrite En, EC, EM in *.
  split; [|split; [|split]]; auto.
  - intros i j Hij Hj. rewrite W5. specialize (W4 i j Hij Hj). unfold clip.
    destruct (Rle_dec (mu j) (e_delta e)); destruct (Rle_dec (mu i) (e_delta e)); lra.
  - intros i _. rewrite W5. apply clip_ge.
  - intros k Hk. exists (mu k). split.
    + intros i Hi. apply (eigen_column n C (mass M) (e_V e) mu W3); auto.
    + rewrite W5. unfold clip, Rmax. destruct (Rle_dec (mu k) (e_delta e)); lra.
Qed.

(** If no eigenvalue of C is below the bound, everything is exact. *)
Theorem C53_exact : forall lx n C delta e,
  eig_init lx n C None delta = Ok e -> eigh_ok n C None (lx_eigh lx n C None) ->
  bounded_below n C mid (eig_bound n C delta) ->
  (meq n n (fst (eig_reconstruct e)) C /\ snd (eig_reconstruct e) = None) /\
  (forall m b, meq n m (eig_dot e b) (mmul n C b)) /\
  exists R, square_root n C R /\
    forall m b, meq n m (eig_sqrt_dot e b false) (mmul n R b) /\
                meq n m (eig_sqrt_dot e b true) (mmul n (mtr R) b).
Proof.
  intros lx n C delta e H K B. start H K.
  assert (Hm : forall i, (i < n)%nat -> e_delta e <= mu i).
  { intros i Hi. rewrite Ed. destruct W as [W1 W2 W3 W4 W5]. rewrite En, EC, EM in *.
    apply (bound_mu n C mid (e_V e) mu W2 W3); auto. }
  assert (S : meq n n (spectral n (e_V e) (e_d e)) C).
  { rewrite (spectral_ext n (e_V e) (e_d e) mu).
    - pose proof (spectral_mu_None e mu W EM) as S. rewrite En, EC in S. exact S.
    - rewrite <- En in *. apply (d_mu e mu W); auto. }
  split; [split|split].
  - pose proof (reconstruct_spec e) as Q. rewrite En in Q. rewrite Q. exact S.
  - exact EM.
  - intros m b. pose proof (dot_spec e m b) as Q. rewrite En in Q. rewrite Q, S. reflexivity.
  - exists (root e). split.
    + unfold square_root. pose proof (root_spec e mu W) as Q. unfold square_root in Q. rewrite En in Q.
      rewrite Q. exact S.
    + intros m b. pose proof (sqrt_dot_spec e m b) as Q. rewrite En in Q. exact Q.
Qed.

(** In general the object stands for C + E, where E is positive semidefinite,
    C + E is at least the bound, and E is at most what is needed for that. *)
Theorem C53_perturbed : forall lx n C delta e,
  eig_init lx n C None delta = Ok e -> eigh_ok n C None (lx_eigh lx n C None) ->
  exists E, symmetric n E /\ semidefinite n E /\
    bounded_below n (madd C E) mid (eig_bound n C delta) /\
    (forall l, l <= eig_bound n C delta -> bounded_below n C mid l ->
       forall x, qf n E x <= (eig_bound n C delta - l) * nsq n x) /\
    meq n n (fst (eig_reconstruct e)) (madd C E) /\
    (forall m b, meq n m (eig_dot e b) (mmul n (madd C E) b)) /\
    exists R, square_root n (madd C E) R /\
      forall m b, meq n m (eig_sqrt_dot e b false) (mmul n R b) /\
                  meq n m (eig_sqrt_dot e b true) (mmul n (mtr R) b).
Proof.
  intros lx n C delta e H K. start H K.
  pose proof (reconstruct_spec e) as Q1. pose proof (dot_spec e) as Q2.
  pose proof (root_spec e mu W) as Q3. pose proof (sqrt_dot_spec e) as Q4.
  pose proof (spectral_mu_None e mu W EM) as S.
  pose proof (VVt e mu W EM) as OV. pose proof (Ho' e mu W EM) as Hoo. pose proof (He' e mu W EM) as Hee.
  rewrite En, EC in *.
  set (E := spectral n (e_V e) (fun i => e_d e i - mu i)).
  assert (A : meq n n (spectral n (e_V e) (e_d e)) (madd C E)).
  { rewrite <- S. unfold E, spectral.
    rewrite <- mmul_add_r. rewrite <- mmul_add_l.
    assert (Q : meq n n (mdiag (e_d e)) (madd (mdiag mu) (mdiag (fun i => e_d e i - mu i)))).
    { intros i j _ _. unfold mdiag, madd. destruct (i =? j)%nat; ring. }
    rewrite Q. reflexivity. }
  assert (Hn : forall x, nsq n (mv n (mtr (e_V e)) x) = nsq n x).
  { intros x. rewrite <- !qf_id, <- qf_conj. apply qf_ext. rewrite mmul_id_l. exact OV. }
  exists E. rewrite <- Ed. split; [|split; [|split; [|split; [|split; [|split]]]]].
  - unfold symmetric, E, spectral. rewrite !mtr_mul, mtr_diag, mtr_tr. apply mmul_assoc.
  - intros x. unfold E. rewrite qf_spectral. apply sum_nonneg. intros i Hi.
    apply Rmult_le_pos; [|apply Rle_0_sqr]. rewrite (wf_d e mu W).
    pose proof (clip_ge_d (e_delta e) mu i). lra.
  - intros x. rewrite <- (qf_ext n _ _ x A). rewrite qf_spectral, qf_id, <- Hn.
    unfold nsq. rewrite <- sum_scal. apply sum_le. intros i Hi.
    apply Rmult_le_compat_r; [apply Rle_0_sqr|]. rewrite (wf_d e mu W). apply clip_ge.
  - intros l Hl Hb x. unfold E. rewrite qf_spectral, <- Hn. unfold nsq. rewrite <- sum_scal.
    apply sum_le. intros i Hi. apply Rmult_le_compat_r; [apply Rle_0_sqr|].
    pose proof (bound_mu n C mid (e_V e) mu Hoo Hee l Hb i Hi).
    rewrite (wf_d e mu W). unfold clip. destruct (Rle_dec (mu i) (e_delta e)); lra.
  - rewrite Q1. exact A.
  - intros m b. rewrite Q2. rewrite A. reflexivity.
  - exists (root e). split; [unfold square_root in *; rewrite Q3; exact A|].
    intros m b. apply Q4.
Qed.

(** solve(b) solves Cx = b, with or without a mass matrix, and
    solve(b, generalized=True) solves Cx = Mb, when the eigenvalues of (C, M)
    are at least the bound and exceed the cut-off. *)
Theorem C53_solve : forall lx n C M delta e eps c,
  eig_init lx n C M delta = Ok e -> eigh_ok n C M (lx_eigh lx n C M) ->
  (forall x, eps = Some x -> 0 < x) ->
  bounded_below n C (mass M) c -> eig_bound n C delta <= c ->
  match eps with Some x => x | None => eps_mach end < c ->
  forall m b,
    (exists x, eig_solve e b eps false = Ok x /\ meq n m (mmul n C x) b) /\
    (forall X, M = Some X -> exists x, eig_solve e b eps true = Ok x /\
       meq n m (mmul n C x) (mmul n X b)).
Proof.
  intros lx n C M delta e eps c H K Hp B H1 H2 m b. start H K.
  assert (Hm : forall i, (i < n)%nat -> c <= mu i).
  { intros i Hi. destruct W as [W1 W2 W3 W4 W5]. rewrite En, EC, EM in *.
    apply (bound_mu n C (mass M) (e_V e) mu W2 W3); auto. }
  pose proof (solve_spec e mu W m b eps Hp) as Q. rewrite En, EC, EM in Q.
  apply Q.
  - intros i Hi. rewrite Ed. specialize (Hm i Hi). lra.
  - intros i Hi. specialize (Hm i Hi). unfold tol_of. lra.
Qed.

(** For a semidefinite C, consistent systems are solved whatever the bound, as
    long as it separates zero from the other eigenvalues. *)
Theorem C53_consistent : forall lx n C delta e eps,
  eig_init lx n C None delta = Ok e -> eigh_ok n C None (lx_eigh lx n C None) ->
  (forall x, eps = Some x -> 0 < x) ->
  (forall l, eigenvalue n C l -> l = 0 \/
     (eig_bound n C delta < l /\ match eps with Some x => x | None => eps_mach end < l)) ->
  forall m b, (exists y, meq n m (mmul n C y) b) ->
  exists x, eig_solve e b eps false = Ok x /\ meq n m (mmul n C x) b.
Proof.
  intros lx n C delta e eps H K Hp Hg m b Hb. start H K.
  pose proof (consistent e mu W EM m b eps Hp) as Q. rewrite En, EC, Ed in Q. auto.
Qed.

(** With bound 0 and a semidefinite C, solve(b) is the least-squares solution of
    least norm: the pseudo-inverse. *)
Theorem C53_pseudo_inverse : forall lx n C e eps,
  eig_init lx n C None (Some 0) = Ok e -> eigh_ok n C None (lx_eigh lx n C None) ->
  (forall x, eps = Some x -> 0 < x) -> semidefinite n C ->
  (forall l, eigenvalue n C l -> l = 0 \/ match eps with Some x => x | None => eps_mach end < l) ->
  forall b, exists X, eig_solve e (col b) eps false = Ok X /\ least_squares n C b (fun i => X i O).
Proof.
  intros lx n C e eps H K Hp Hs Hg b. start H K.
  pose proof (pinv e mu W EM) as Q. rewrite En, EC in Q. apply Q; auto.
Qed.

(** sqrt_solve inverts the square root of sqrt_dot. *)
Theorem C53_sqrt_solve : forall lx n C delta e eps,
  eig_init lx n C None delta = Ok e -> eigh_ok n C None (lx_eigh lx n C None) ->
  (forall x, eps = Some x -> 0 < x) ->
  (forall i, (i < n)%nat -> match eps with Some x => x | None => eps_mach end < sqrt (e_d e i)) ->
  exists R, square_root n (fst (eig_reconstruct e)) R /\
    (forall m b, meq n m (eig_sqrt_dot e b false) (mmul n R b) /\
                 meq n m (eig_sqrt_dot e b true) (mmul n (mtr R) b)) /\
    forall m b,
      (exists x, eig_sqrt_solve e b false eps = Ok x /\ meq n m (mmul n R x) b) /\
      (exists x, eig_sqrt_solve e b true eps = Ok x /\ meq n m (mmul n (mtr R) x) b).
Proof.
  intros lx n C delta e eps H K Hp Hd. start H K.
  pose proof (root_spec e mu W) as Q3. pose proof (sqrt_dot_spec e) as Q4.
  exists (root e). rewrite <- En in *. split; [exact Q3|]. split; [intros; apply Q4|].
  intros m b. destruct (sqrt_solve_spec e mu W m b eps Hp Hd) as [[x [Ex Hx]] [y [Ey Hy]]].
  rewrite EM in Hx, Hy. cbn [mass] in Hx, Hy. rewrite mmul_id_l in Hx, Hy.
  split; eexists; split; eauto.
Qed.

(** With bound 0: get_nullspace and get_range are orthonormal bases of the
    kernel and the image of C, get_rank is the dimension of the image. *)
Theorem C53_rank : forall lx n C e tol,
  eig_init lx n C None (Some 0) = Ok e -> eigh_ok n C None (lx_eigh lx n C None) ->
  semidefinite n C -> 0 < tol ->
  (forall l, eigenvalue n C l -> l = 0 \/ tol < l) ->
  orthonormal_basis n (kernel n C) (eig_nullspace e tol) /\
  orthonormal_basis n (image n C) (eig_range e tol) /\
  eig_rank e tol = length (eig_range e tol) /\
  (eig_rank e tol + length (eig_nullspace e tol) = n)%nat.
Proof.
  intros lx n C e tol H K Hs Ht Hg. start H K. cbn in Ed.
  pose proof (kernel_basis e mu W EM Ed) as Q1. pose proof (range_basis e mu W EM Ed) as Q2.
  pose proof (rank_eq e mu W EM Ed) as Q3. rewrite En, EC in *.
  split; [|split]; auto.
Qed.

(** With a mass matrix, reconstruct, dot and sqrt_dot stand for the matrix K
    with C = M K M. *)
Theorem C53_mass : forall lx n C M delta e,
  eig_init lx n C (Some M) delta = Ok e -> eigh_ok n C (Some M) (lx_eigh lx n C (Some M)) ->
  bounded_below n C M (eig_bound n C delta) ->
  exists K, meq n n (mmul n M (mmul n K M)) C /\
    meq n n (fst (eig_reconstruct e)) K /\ snd (eig_reconstruct e) = Some M /\
    (forall m b, meq n m (eig_dot e b) (mmul n K b)) /\
    exists R, square_root n K R /\
      forall m b, meq n m (eig_sqrt_dot e b false) (mmul n R b) /\
                  meq n m (eig_sqrt_dot e b true) (mmul n (mtr R) b).
Proof.
  intros lx n C M delta e H K B. start H K.
  assert (Hm : forall i, (i < n)%nat -> e_delta e <= mu i).
  { intros i Hi. rewrite Ed. destruct W as [W1 W2 W3 W4 W5]. rewrite En, EC, EM in *.
    apply (bound_mu n C M (e_V e) mu W2 W3); auto. }
  exists (spectral n (e_V e) (e_d e)).
  pose proof (root_spec e mu W) as Q3. pose proof (sqrt_dot_spec e) as Q4. pose proof (dot_spec e) as Q2.
  pose proof (d_mu e mu W) as Dm. pose proof (wf_orth e mu W) as W2. pose proof (wf_eig e mu W) as W3.
  rewrite En, EC, EM in *. split; [|split; [|split; [|split]]]; auto.
  - rewrite (spectral_ext n (e_V e) (e_d e) mu (Dm Hm)). exact (MspecM n C M (e_V e) mu W2 W3).
  - unfold eig_reconstruct, spectral. rewrite En. reflexivity.
  - exists (root e). split; auto.
Qed.

(** The covariance of gmrf.Covariance(discretization='interpolation')
    (gmrf.py 658-683): C = M K M' for the kernel matrix K and the mass matrix M.
    The decomposition then reproduces K itself. *)
Theorem C53_interpolation : forall lx n K M delta e,
  let C := mmul n M (mmul n K (mtr M)) in
  eig_init lx n C (Some M) delta = Ok e -> eigh_ok n C (Some M) (lx_eigh lx n C (Some M)) ->
  bounded_below n C M (eig_bound n C delta) ->
  meq n n (fst (eig_reconstruct e)) K /\
  (forall m b, meq n m (eig_dot e b) (mmul n K b)) /\
  exists R, square_root n K R /\
    forall m b, meq n m (eig_sqrt_dot e b false) (mmul n R b) /\
                meq n m (eig_sqrt_dot e b true) (mmul n (mtr R) b).
Proof.
  intros lx n K M delta e C H Kk B.
  destruct (C53_mass lx n C M delta e H Kk B) as (K' & A1 & A2 & _ & A3 & R & A4 & A5).
  assert (E : meq n n K' K).
  { start H Kk. pose proof (wf_orth e mu W) as W2. rewrite En, EM in W2. cbn [mass] in W2.
    pose proof (VVtM n M (e_V e) W2) as I1. pose proof (MVVt n M (e_V e) W2) as I2.
    pose proof (M_sym n M (e_V e) W2) as Sm. unfold symmetric in Sm.
    set (V := e_V e) in *. unfold C in A1. rewrite Sm in A1.
    (* N = V V' is the inverse of M on both sides *)
    assert (I3 : meq n n (mmul n (mmul n V (mtr V)) M) mid) by (rewrite mmul_assoc; exact I1).
    assert (X : forall Y, meq n n (mmul n (mmul n V (mtr V)) (mmul n (mmul n M (mmul n Y M)) (mmul n V (mtr V)))) Y).
    { intros Y. rewrite (mmul_assoc n n n n M (mmul n Y M)). rewrite (mmul_assoc n n n n Y M). rewrite I2. rewrite mmul_id_r.
      rewrite <- mmul_assoc. rewrite I3. apply mmul_id_l. }
    rewrite <- (X K'), <- (X K). rewrite A1. reflexivity. }
  split; [rewrite A2; exact E|]. split; [intros; rewrite A3, E; reflexivity|].
  exists R. split; auto. unfold square_root in *. rewrite A4. exact E.
Qed.

(** ** What is not true *)
Definition lx_const (r : (nat -> R) * mat) : lapack :=
  {| lx_eigh := fun _ _ _ => r; lx_chol := fun _ _ => None; lx_cholmod := fun _ _ => None;
     lx_ldl := fun _ _ => (mzero, mzero, fun i => i) |}.

Definition two (a b c d : R) : mat := fun i j =>
  match i, j with O, O => a | O, _ => b | _, O => c | _, _ => d end.
Definition vec2 (a b : R) : nat -> R := fun i => match i with O => a | _ => b end.

Ltac idx2 := let i := fresh "i" in let j := fresh "j" in intros i j ? ?;
  destruct i as [|[|i]]; [| |lia]; (destruct j as [|[|j]]; [| |lia]).

(** C = diag(1,0), eigenvalues 0, 1 *)
Definition C0 : mat := two 1 0 0 0.
Definition r0 : (nat -> R) * mat := (vec2 0 1, two 0 1 1 0).

Lemma r0_ok : eigh_ok 2 C0 None r0.
Proof.
  unfold eigh_ok, r0. split; [|split].
  - intros i j Hij Hj. destruct j as [|[|j]]; [| |lia]; destruct i as [|[|i]]; try lia; unfold vec2; lra.
  - idx2; cbn; unfold mid; cbn; lra.
  - idx2; cbn; unfold mid; cbn; unfold mdiag; cbn; lra.
Qed.

Lemma C0_psd : semidefinite 2 C0.
Proof. intros x. unfold qf. cbn. nra. Qed.

Lemma C0_eigenvalues : forall l, eigenvalue 2 C0 l -> l = 0 \/ l = 1.
Proof.
  intros l (x & (i & Hi & Hx) & Hl).
  pose proof (Hl O ltac:(lia)) as A. pose proof (Hl 1%nat ltac:(lia)) as B.
  unfold mv in A, B. cbn in A, B.
  destruct i as [|[|i]]; [| |lia].
  - right. apply (Rmult_eq_reg_r (x O)); [lra|auto].
  - left. apply (Rmult_eq_reg_r (x 1%nat)); [lra|auto].
Qed.

Lemma fro_C0 : fro 2 C0 = 1.
Proof.
  unfold fro, sum, C0, two.
  match goal with |- sqrt ?x = 1 => replace x with 1 by lra end. apply sqrt_1.
Qed.

Lemma sqrt_eps : sqrt eps_mach = / 2 ^ 26.
Proof.
  unfold eps_mach. replace (/ 2 ^ 52) with (/ 2 ^ 26 * / 2 ^ 26).
  - apply sqrt_square. left. apply Rinv_0_lt_compat. apply pow_lt. lra.
  - rewrite <- Rinv_mult. f_equal. rewrite <- pow_add. reflexivity.
Qed.

(** With the default bound a singular matrix is reported to have full rank, its
    nullspace is reported to be trivial, and dot(b) is not C*b. *)
Theorem C53_default_bound_refuted : exists lx n C e,
  eig_init lx n C None None = Ok e /\ eigh_ok n C None (lx_eigh lx n C None) /\
  semidefinite n C /\ (exists x, nonzero n x /\ kernel n C x) /\
  eig_rank e tol_rank = n /\ eig_nullspace e tol_rank = [] /\
  exists b, ~ meq n 1 (eig_dot e b) (mmul n C b).
Proof.
  exists (lx_const r0), 2%nat, C0.
  assert (B : 0 <= eig_bound 2 C0 None) by apply default_bound_nonneg.
  assert (Bv : eig_bound 2 C0 None = / 2 ^ 26).
  { unfold eig_bound. rewrite fro_C0, sqrt_eps. ring. }
  assert (P26 : 0 < / 2 ^ 26) by (apply Rinv_0_lt_compat, pow_lt; lra).
  assert (L26 : / 2 ^ 26 < 1).
  { rewrite <- Rinv_1. apply Rinv_lt_contravar; [rewrite Rmult_1_l; apply pow_lt; lra|].
    replace 1 with (1 ^ 26) by apply pow1. apply Rlt_pow_l || idtac. simpl. lra. }
  assert (T26 : tol_rank < / 2 ^ 26).
  { unfold tol_rank. apply Rinv_lt_contravar; [apply Rmult_lt_0_compat; apply pow_lt; lra|simpl; lra]. }
  assert (T0 : 0 < tol_rank) by (unfold tol_rank; apply Rinv_0_lt_compat, pow_lt; lra).
  eexists. split; [|split; [exact r0_ok|split; [exact C0_psd|split; [|split; [|split]]]]].
  - unfold eig_init. destruct (Rle_dec 0 (eig_bound 2 C0 None)); [|contradiction].
    cbn -[eig_bound]. reflexivity.
  - exists (vec2 0 1). split; [exists 1%nat; split; [lia|cbn; lra]|].
    intros i Hi. destruct i as [|[|i]]; [| |lia]; unfold mv; cbn; lra.
  - unfold eig_rank. cbn -[eig_bound tol_rank]. unfold above, clip. cbn -[eig_bound tol_rank]. rewrite Bv.
    destruct (Rle_dec 1 (/ 2 ^ 26)); [lra|]. destruct (Rle_dec 0 (/ 2 ^ 26)); [|lra].
    rewrite !Rabs_right by lra.
    destruct (Rlt_dec tol_rank 1); [|lra]. destruct (Rlt_dec tol_rank (/ 2 ^ 26)); [|lra]. reflexivity.
  - unfold eig_nullspace, columns. cbn -[eig_bound tol_rank]. unfold below, clip. cbn -[eig_bound tol_rank]. rewrite Bv.
    destruct (Rle_dec 1 (/ 2 ^ 26)); [lra|]. destruct (Rle_dec 0 (/ 2 ^ 26)); [|lra].
    rewrite !Rabs_right by lra.
    destruct (Rlt_dec 1 tol_rank); [lra|]. destruct (Rlt_dec (/ 2 ^ 26) tol_rank); [lra|]. reflexivity.
  - exists (col (vec2 0 1)). intro Q. specialize (Q 1%nat O ltac:(lia) ltac:(lia)).
    unfold eig_dot in Q. cbn -[eig_bound C0] in Q. unfold mmul, mdiag, mtr, clip, col in Q. cbn -[eig_bound C0] in Q.
    rewrite Bv in Q. unfold C0, two, vec2 in Q.
    destruct (Rle_dec 1 (/ 2 ^ 26)); [lra|]. destruct (Rle_dec 0 (/ 2 ^ 26)); [|lra]. lra.
Qed.

(** With a mass matrix dot(b) is not C*b, reconstruct() is not C, and
    sqrt_dot is not a square root of C; solve does not undo dot and sqrt_solve
    does not undo sqrt_dot. *)
Definition r1 : (nat -> R) * mat := (fun _ => / 4, two (/ 2) 0 0 (/ 2)).
Theorem C53_mass_refuted : exists lx n C M e b,
  eig_init lx n C (Some M) (Some 0) = Ok e /\ eigh_ok n C (Some M) (lx_eigh lx n C (Some M)) /\
  definite n C /\ definite n M /\
  ~ meq n n (fst (eig_reconstruct e)) C /\
  ~ meq n 1 (eig_dot e b) (mmul n C b) /\
  ~ meq n 1 (eig_sqrt_dot e (eig_sqrt_dot e b true) false) (mmul n C b) /\
  (exists x, eig_solve e (eig_dot e b) None false = Ok x /\ ~ meq n 1 x b) /\
  (exists x, eig_sqrt_solve e (eig_sqrt_dot e b false) false None = Ok x /\ ~ meq n 1 x b).
Proof.
  assert (Le : eps_mach < / 4).
  { unfold eps_mach. apply Rinv_lt_contravar; [apply Rmult_lt_0_compat; [lra|apply pow_lt; lra]|simpl; lra]. }
  assert (S4 : sqrt (/ 4) = / 2).
  { replace (/ 4) with (/ 2 * / 2) by lra. apply sqrt_square. lra. }
  exists (lx_const r1), 2%nat, mid, (mdiag (fun _ => 4)).
  eexists. exists (col (vec2 1 0)).
  split; [|split; [|split; [|split; [|split; [|split; [|split; [|split]]]]]]].
  - unfold eig_init. cbn [eig_bound]. destruct (Rle_dec 0 0); [|lra]. cbn. reflexivity.
  - unfold eigh_ok, r1, lx_const. cbn [lx_eigh mass]. split; [intros; lra|split].
    + idx2; cbn; unfold mmul, mtr, mdiag, mid, two; cbn; lra.
    + idx2; cbn; unfold mmul, mtr, mdiag, mid, two; cbn; lra.
  - intros x (i & Hi & Hx). unfold qf, mid. cbn. destruct i as [|[|i]]; [| |lia]; nra.
  - intros x (i & Hi & Hx). unfold qf, mdiag. cbn. destruct i as [|[|i]]; [| |lia]; nra.
  - intro Q. specialize (Q O O ltac:(lia) ltac:(lia)).
    unfold eig_reconstruct in Q. cbn in Q. unfold mmul, mdiag, mtr, clip, mid in Q. cbn in Q.
    destruct (Rle_dec (/ 4) 0); lra.
  - intro Q. specialize (Q O O ltac:(lia) ltac:(lia)).
    unfold eig_dot in Q. cbn in Q. unfold mmul, mdiag, mtr, clip, mid, col in Q. cbn in Q.
    destruct (Rle_dec (/ 4) 0); lra.
  - intro Q. specialize (Q O O ltac:(lia) ltac:(lia)).
    unfold eig_sqrt_dot in Q. cbn in Q. unfold mmul, mdiag, mtr, clip, mid, col in Q. cbn in Q.
    destruct (Rle_dec (/ 4) 0); [lra|]. rewrite S4 in Q. lra.
  - eexists. split; [reflexivity|]. intro Q. specialize (Q O O ltac:(lia) ltac:(lia)).
    unfold eig_dot in Q. cbn -[eps_mach] in Q. unfold mmul, mdiag, mtr, clip, mid, col in Q. cbn -[eps_mach] in Q.
    destruct (Rle_dec (/ 4) 0); [lra|]. rewrite Rabs_right in Q by lra.
    destruct (Rlt_dec eps_mach (/ 4)); [|contradiction]. lra.
  - eexists. split; [reflexivity|]. intro Q. specialize (Q O O ltac:(lia) ltac:(lia)).
    unfold eig_sqrt_dot in Q. cbn -[eps_mach] in Q. unfold mmul, mdiag, mtr, clip, mid, col in Q. cbn -[eps_mach] in Q.
    destruct (Rle_dec (/ 4) 0); [lra|]. rewrite S4 in Q. rewrite Rabs_right in Q by lra.
    destruct (Rlt_dec eps_mach (/ 2)); lra.
Qed.

(** ** Concrete cases that meet the hypotheses *)

(** C = [[2,1],[1,2]], eigenvalues 1 and 3: C53_exact, C53_solve, C53_sqrt_solve *)
Definition s2 : R := / sqrt 2.
Lemma s2_sq : s2 * s2 = / 2.
Proof. unfold s2. rewrite <- Rinv_mult. f_equal. apply sqrt_sqrt. lra. Qed.
Definition C3 : mat := two 2 1 1 2.
Definition r3 : (nat -> R) * mat := (vec2 1 3, two s2 s2 (- s2) s2).
Lemma r3_ok : eigh_ok 2 C3 None r3.
Proof.
  pose proof s2_sq as Q. unfold eigh_ok, r3. split; [|split].
  - intros i j Hij Hj. destruct j as [|[|j]]; [| |lia]; destruct i as [|[|i]]; try lia; unfold vec2; lra.
  - idx2; cbn; unfold mmul, mtr, mid, two; cbn; lra.
  - idx2; cbn; unfold mmul, mdiag, mid, C3, two, vec2; cbn; lra.
Qed.
Lemma C3_bound : forall c, c <= 1 -> bounded_below 2 C3 mid c.
Proof.
  intros c Hc x. unfold qf, mid, C3, two. cbn.
  pose proof (Rle_0_sqr (x O + x 1%nat)) as A. pose proof (Rle_0_sqr (x O)) as B.
  pose proof (Rle_0_sqr (x 1%nat)) as D. unfold Rsqr in *.
  assert (0 <= (1 - c) * (x O * x O + x 1%nat * x 1%nat)) by (apply Rmult_le_pos; lra). nra.
Qed.
Lemma eps_small : eps_mach < / 2.
Proof. unfold eps_mach. apply Rinv_lt_contravar; [apply Rmult_lt_0_compat; [lra|apply pow_lt; lra]|simpl; lra]. Qed.
Example C53_exact_case : exists e, eig_init (lx_const r3) 2 C3 None (Some (/ 2)) = Ok e /\
  eigh_ok 2 C3 None (lx_eigh (lx_const r3) 2 C3 None) /\ bounded_below 2 C3 mid (eig_bound 2 C3 (Some (/ 2))) /\
  (exists c, bounded_below 2 C3 (mass None) c /\ eig_bound 2 C3 (Some (/ 2)) <= c /\ eps_mach < c) /\
  (forall i, (i < 2)%nat -> eps_mach < sqrt (e_d e i)).
Proof.
  assert (Q : exists e, eig_init (lx_const r3) 2 C3 None (Some (/ 2)) = Ok e) by (apply eig_init_ok; cbn; lra).
  destruct Q as [e He]. exists e. pose proof eps_small as Q.
  split; [exact He|]. split; [exact r3_ok|]. split; [apply C3_bound; cbn; lra|]. split.
  - exists 1. split; [apply C3_bound; lra|cbn [eig_bound]; lra].
  - intros i Hi. destruct (C53_eigenpairs _ _ _ _ _ _ He r3_ok) as (_ & B & _).
    specialize (B i Hi). cbn [eig_bound] in B.
    apply Rlt_le_trans with (sqrt (/ 4)).
    + replace (sqrt (/ 4)) with (/ 2); auto.
      replace (/ 4) with (/ 2 * / 2) by lra. symmetry. apply sqrt_square. lra.
    + apply sqrt_le_1; lra.
Qed.
(** the default bound: here 2^-26 * sqrt 10 *)
Example C53_default_case : bounded_below 2 C3 mid (eig_bound 2 C3 None).
Proof.
  apply C3_bound. unfold eig_bound. rewrite sqrt_eps.
  assert (F : fro 2 C3 <= 4).
  { unfold fro, sum, C3, two. replace 4 with (sqrt (4 * 4)) by (apply sqrt_square; lra).
    apply sqrt_le_1; lra. }
  assert (P : / 2 ^ 26 <= / 4).
  { apply Rinv_le_contravar; simpl; lra. }
  pose proof (fro_nonneg 2 C3).
  apply Rle_trans with (/ 4 * 4); [|lra]. apply Rmult_le_compat; auto.
  left. apply Rinv_0_lt_compat, pow_lt. lra.
Qed.
(** C = diag(1,0): C53_consistent (a bound above 0), C53_pseudo_inverse, C53_rank *)
Example C53_singular_case :
  (exists e, eig_init (lx_const r0) 2 C0 None (Some (/ 4)) = Ok e) /\
  (exists e, eig_init (lx_const r0) 2 C0 None (Some 0) = Ok e) /\
  eigh_ok 2 C0 None (lx_eigh (lx_const r0) 2 C0 None) /\ semidefinite 2 C0 /\
  (forall l, eigenvalue 2 C0 l -> l = 0 \/ (eig_bound 2 C0 (Some (/ 4)) < l /\ eps_mach < l)) /\
  (exists x, nonzero 2 x /\ kernel 2 C0 x).
Proof.
  pose proof eps_small as Q.
  split; [apply eig_init_ok; cbn; lra|]. split; [apply eig_init_ok; cbn; lra|].
  split; [exact r0_ok|]. split; [exact C0_psd|]. split.
  - intros l Hl. destruct (C0_eigenvalues l Hl) as [->| ->]; [left; auto|right; cbn [eig_bound]; lra].
  - exists (vec2 0 1). split; [exists 1%nat; split; [lia|cbn; lra]|].
    intros i Hi. destruct i as [|[|i]]; [| |lia]; unfold mv; cbn; lra.
Qed.
(** C = I = M K M with M = 4 I and K = I/16: C53_mass, C53_interpolation *)
Example C53_mass_case :
  let M := mdiag (fun _ => 4) in let K := mdiag (fun _ => / 16) in
  let C := mmul 2 M (mmul 2 K (mtr M)) in
  (exists e, eig_init (lx_const r1) 2 C (Some M) (Some (/ 8)) = Ok e) /\
  eigh_ok 2 C (Some M) (lx_eigh (lx_const r1) 2 C (Some M)) /\
  bounded_below 2 C M (eig_bound 2 C (Some (/ 8))) .
Proof.
  intros M K C. split; [apply eig_init_ok; cbn; lra|]. split.
  - unfold eigh_ok, r1, lx_const. cbn [lx_eigh mass]. split; [intros; lra|split].
    + idx2; cbn; unfold mmul, mtr, mdiag, mid, two; cbn; lra.
    + idx2; cbn; unfold C, mmul, M, K, mtr, mdiag, mid, two; cbn; lra.
  - intros x. unfold C, M, K, qf, mmul, mtr, mdiag, eig_bound. cbn.
    pose proof (Rle_0_sqr (x O)) as B. pose proof (Rle_0_sqr (x 1%nat)) as D. unfold Rsqr in *. nra.
Qed.

Print Assumptions C53_total. Print Assumptions C53_eigenpairs. Print Assumptions C53_exact.
Print Assumptions C53_perturbed. Print Assumptions C53_solve. Print Assumptions C53_consistent.
Print Assumptions C53_pseudo_inverse. Print Assumptions C53_sqrt_solve. Print Assumptions C53_rank.
Print Assumptions C53_mass. Print Assumptions C53_interpolation.
Print Assumptions C53_default_bound_refuted. Print Assumptions C53_mass_refuted.

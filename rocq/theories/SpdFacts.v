(** * Facts about the eigendecomposition of src/spd.py *)
From Coq Require Import List Arith Reals Lia Lra Setoid Morphisms.
From Verif Require Import Tree RMat Spd SpecSpd.
Import ListNotations.
Local Open Scope R_scope.

(** ** V'MV = I, CV = MV diag(mu) *)
Section Eigen.
  Variables (n : nat) (C M V : mat) (mu : nat -> R).
  Hypothesis Horth : meq n n (mmul n (mtr V) (mmul n M V)) mid.
  Hypothesis Heig : meq n n (mmul n C V) (mmul n M (mmul n V (mdiag mu))).

  Lemma MVVt : meq n n (mmul n M (mmul n V (mtr V))) mid.
  Proof. rewrite <- mmul_assoc. apply left_inv_right_inv. exact Horth. Qed.

  Lemma VVtM : meq n n (mmul n V (mmul n (mtr V) M)) mid.
  Proof. apply left_inv_right_inv. rewrite mmul_assoc. exact Horth. Qed.

  Lemma M_sym : symmetric n M.
  Proof.
    unfold symmetric.
    assert (E : meq n n (mmul n (mmul n V (mtr V)) (mtr M)) mid).
    { rewrite <- (mtr_id n). rewrite <- MVVt. rewrite !mtr_mul. rewrite mtr_tr. reflexivity. }
    rewrite <- (mmul_id_l n n (mtr M)). rewrite <- MVVt.
    rewrite mmul_assoc. rewrite E. apply mmul_id_r.
  Qed.

  Lemma C_spectral : meq n n C (mmul n (mmul n M V) (mmul n (mdiag mu) (mtr (mmul n M V)))).
  Proof.
    rewrite <- (mmul_id_r n n C) at 1. rewrite <- VVtM.
    rewrite <- mmul_assoc. rewrite Heig. rewrite mtr_mul.
    assert (Ms := M_sym). unfold symmetric in Ms. rewrite Ms.
    rewrite !mmul_assoc. reflexivity.
  Qed.

  (** the coordinates of x *)
  Definition coord (x : nat -> R) : nat -> R := mv n (mtr (mmul n M V)) x.

  Lemma qf_C : forall x, qf n C x = sum n (fun i => mu i * (coord x i * coord x i)).
  Proof. intros x. rewrite (qf_ext n _ _ x C_spectral), qf_conj, qf_diag. reflexivity. Qed.

  Lemma M_spectral : meq n n M (mmul n (mmul n M V) (mmul n mid (mtr (mmul n M V)))).
  Proof.
    rewrite mmul_id_l, mtr_mul.
    assert (Ms := M_sym). unfold symmetric in Ms. rewrite Ms.
    rewrite <- mmul_assoc. rewrite (mmul_assoc n n n n M V (mtr V)).
    rewrite MVVt. rewrite mmul_id_l. reflexivity.
  Qed.

  Lemma qf_M : forall x, qf n M x = nsq n (coord x).
  Proof. intros x. rewrite (qf_ext n _ _ x M_spectral), qf_conj, qf_id. reflexivity. Qed.

  (** the coordinates of the k-th eigenvector *)
  Lemma coord_V : forall k i, (k < n)%nat -> (i < n)%nat -> coord (fun a => V a k) i = mid i k.
  Proof.
    intros k i Hk Hi. unfold coord, mv.
    assert (E : meq n n (mmul n (mtr (mmul n M V)) V) mid).
    { rewrite mtr_mul. assert (Ms := M_sym). unfold symmetric in Ms. rewrite Ms.
      rewrite mmul_assoc. exact Horth. }
    exact (E i k Hi Hk).
  Qed.

  Lemma V_nonzero : forall k, (k < n)%nat -> nonzero n (fun a => V a k).
  Proof.
    intros k Hk. destruct (find_nonzero n (fun a => V a k)) as [H|H]; [exact H|].
    exfalso. pose proof (coord_V k k Hk Hk) as E. unfold mid in E. rewrite Nat.eqb_refl in E.
    unfold coord, mv in E. rewrite sum_zero in E; [lra|].
    intros i Hi. cbn beta. rewrite H by auto. ring.
  Qed.

  Lemma bound_mu : forall c, bounded_below n C M c -> forall k, (k < n)%nat -> c <= mu k.
  Proof.
    intros c H k Hk. specialize (H (fun a => V a k)).
    rewrite qf_C, qf_M in H. unfold nsq in H.
    rewrite (sum_ext n _ (fun i => if (i =? k)%nat then 1 else 0)) in H.
    2:{ intros i Hi. rewrite coord_V by auto. unfold mid. destruct (i =? k)%nat; ring. }
    rewrite (sum_delta n k (fun _ => 1)) in H by auto.
    rewrite (sum_ext n _ (fun i => if (i =? k)%nat then mu i else 0)) in H.
    2:{ intros i Hi. rewrite coord_V by auto. unfold mid. destruct (i =? k)%nat; ring. }
    rewrite (sum_delta n k mu) in H by auto. lra.
  Qed.

  Lemma mu_bound : forall c, (forall k, (k < n)%nat -> c <= mu k) -> bounded_below n C M c.
  Proof.
    intros c H x. rewrite qf_C, qf_M. unfold nsq. rewrite <- sum_scal. apply sum_le.
    intros i Hi. apply Rmult_le_compat_r; [apply Rle_0_sqr|auto].
  Qed.

  (** V diag(d) V', the matrix the decomposition stands for *)
  Definition spectral (d : nat -> R) : mat := mmul n V (mmul n (mdiag d) (mtr V)).

  Lemma spectral_mul : forall d e, meq n n (mmul n (spectral d) (mmul n M (spectral e)))
                                           (spectral (fun i => d i * e i)).
  Proof.
    intros d e. unfold spectral.
    rewrite !mmul_assoc.
    rewrite <- (mmul_assoc n n n n M V). rewrite <- (mmul_assoc n n n n (mtr V)).
    rewrite (Horth). rewrite mmul_id_l.
    rewrite <- (mmul_assoc n n n n (mdiag d)). rewrite mdiag_mul. reflexivity.
  Qed.

  Lemma MspecM : meq n n (mmul n M (mmul n (spectral mu) M)) C.
  Proof.
    unfold spectral. rewrite C_spectral at 1. rewrite mtr_mul.
    assert (Ms := M_sym). unfold symmetric in Ms. rewrite Ms.
    rewrite !mmul_assoc. reflexivity.
  Qed.

  Lemma C_spec : forall d, meq n n (mmul n C (spectral d)) (mmul n M (spectral (fun i => mu i * d i))).
  Proof.
    intros d. unfold spectral. rewrite <- mmul_assoc. rewrite Heig.
    rewrite !mmul_assoc. rewrite <- (mmul_assoc n n n n (mdiag mu)).
    rewrite mdiag_mul. reflexivity.
  Qed.

  Lemma spec_one : forall d, (forall i, (i < n)%nat -> d i = 1) -> meq n n (mmul n M (spectral d)) mid.
  Proof.
    intros d H. unfold spectral. rewrite (mdiag_one n d H). rewrite mmul_id_l. apply MVVt.
  Qed.

  Lemma spectral_ext : forall d e, (forall i, (i < n)%nat -> d i = e i) -> meq n n (spectral d) (spectral e).
  Proof. intros d e H. unfold spectral. rewrite (mdiag_ext n d e H). reflexivity. Qed.

  Lemma qf_spectral : forall d x, qf n (spectral d) x = sum n (fun i => d i * (mv n (mtr V) x i * mv n (mtr V) x i)).
  Proof. intros d x. unfold spectral. rewrite qf_conj, qf_diag. reflexivity. Qed.

  Lemma spectral_sqrt : forall d, (forall i, (i < n)%nat -> 0 <= d i) ->
    square_root n (spectral d) (mmul n V (mdiag (fun i => sqrt (d i)))).
  Proof.
    intros d H. unfold square_root. rewrite mtr_mul. rewrite mtr_diag.
    rewrite mmul_assoc. rewrite <- (mmul_assoc n n n n (mdiag _)).
    rewrite mdiag_mul. unfold spectral.
    rewrite (mdiag_ext n (fun i => sqrt (d i) * sqrt (d i)) d); [reflexivity|].
    intros i Hi. apply sqrt_sqrt. auto.
  Qed.

  (** every mu k is an eigenvalue (without mass matrix) *)
  Lemma eigen_column : forall k i, (k < n)%nat -> (i < n)%nat ->
    mv n C (fun a => V a k) i = mu k * mv n M (fun a => V a k) i.
  Proof.
    intros k i Hk Hi. pose proof (Heig i k Hi Hk) as E.
    assert (E2 : meq n n (mmul n M (mmul n V (mdiag mu))) (fun a b => mmul n M V a b * mu b)).
    { rewrite <- mmul_assoc. rewrite mmul_diag_r. reflexivity. }
    rewrite (E2 i k Hi Hk) in E. unfold mv. unfold mmul in E. rewrite E. ring.
  Qed.
End Eigen.

(** ** Reversal of the order of the eigenvalues *)
Lemma mmul_rev_cols : forall n m A B,
  meq n m (mmul m A (fun i j => B i (m - 1 - j)%nat)) (fun i j => mmul m A B i (m - 1 - j)%nat).
Proof. intros n m A B i j _ _. reflexivity. Qed.

Lemma eigh_rev : forall n C M d V, eigh_ok n C M (d, V) ->
  let V' := fun i j => V i (n - 1 - j)%nat in
  let mu := fun i => d (n - 1 - i)%nat in
  meq n n (mmul n (mtr V') (mmul n (mass M) V')) mid /\
  meq n n (mmul n C V') (mmul n (mass M) (mmul n V' (mdiag mu))) /\
  (forall i j, (i <= j)%nat -> (j < n)%nat -> mu j <= mu i).
Proof.
  intros n C M d V (Hs & Ho & He) V' mu. repeat split.
  - intros i j Hi Hj.
    pose proof (Ho (n - 1 - i)%nat (n - 1 - j)%nat ltac:(lia) ltac:(lia)) as E.
    unfold mmul, mtr in E. unfold mmul, mtr, V'. rewrite E.
    unfold mid. destruct (Nat.eqb_spec i j); destruct (Nat.eqb_spec (n-1-i) (n-1-j)); try lia; auto.
  - intros i j Hi Hj.
    pose proof (He i (n - 1 - j)%nat Hi ltac:(lia)) as E.
    assert (F : forall W e, meq n n (mmul n (mass M) (mmul n W (mdiag e)))
                  (fun a b => mmul n (mass M) W a b * e b)).
    { intros W e. rewrite <- mmul_assoc. rewrite mmul_diag_r. reflexivity. }
    rewrite (F V d i (n - 1 - j)%nat) in E by lia.
    rewrite (F V' mu i j) by lia. unfold mu, V'. unfold mmul in E |- *. exact E.
  - intros i j Hij Hj. unfold mu. apply Hs; lia.
Qed.

(** ** The object the constructor returns *)
Lemma clip_ge : forall delta d i, delta <= clip delta d i.
Proof. intros. unfold clip. destruct (Rle_dec (d i) delta); lra. Qed.
Lemma clip_ge_d : forall delta d i, d i <= clip delta d i.
Proof. intros. unfold clip. destruct (Rle_dec (d i) delta); lra. Qed.
Lemma clip_same : forall delta d i, delta <= d i -> clip delta d i = d i.
Proof. intros. unfold clip. destruct (Rle_dec (d i) delta); lra. Qed.

Record eig_wf (e : eig) (mu : nat -> R) : Prop := {
  wf_delta : 0 <= e_delta e;
  wf_orth : meq (e_n e) (e_n e) (mmul (e_n e) (mtr (e_V e)) (mmul (e_n e) (mass (e_M e)) (e_V e))) mid;
  wf_eig : meq (e_n e) (e_n e) (mmul (e_n e) (e_C e) (e_V e))
               (mmul (e_n e) (mass (e_M e)) (mmul (e_n e) (e_V e) (mdiag mu)));
  wf_dec : forall i j, (i <= j)%nat -> (j < e_n e)%nat -> mu j <= mu i;
  wf_d : e_d e = clip (e_delta e) mu
}.

Lemma eig_init_wf : forall lx n C M delta e,
  eig_init lx n C M delta = Ok e -> eigh_ok n C M (lx_eigh lx n C M) ->
  e_n e = n /\ e_C e = C /\ e_M e = M /\ e_delta e = eig_bound n C delta /\ exists mu, eig_wf e mu.
Proof.
  intros lx n C M delta e H K. unfold eig_init, eig_decompose in H.
  destruct (Rle_dec 0 (eig_bound n C delta)) as [Hd|]; [|discriminate].
  destruct (lx_eigh lx n C M) as [d V] eqn:EL.
  injection H as <-. cbn. repeat split; auto.
  destruct (eigh_rev n C M d V K) as (A & B & D).
  exists (fun i => d (n - 1 - i)%nat). split; cbn; auto.
Qed.

Lemma eig_init_ok : forall lx n C M delta, 0 <= eig_bound n C delta ->
  exists e, eig_init lx n C M delta = Ok e.
Proof.
  intros. unfold eig_init. destruct (Rle_dec 0 (eig_bound n C delta)); [|contradiction].
  destruct (eig_decompose lx n C M (eig_bound n C delta)). eexists; reflexivity.
Qed.

Lemma fro_nonneg : forall n C, 0 <= fro n C.
Proof. intros. apply sqrt_pos. Qed.
Lemma eps_pos : 0 < eps_mach.
Proof. unfold eps_mach. apply Rinv_0_lt_compat. apply pow_lt. lra. Qed.
Lemma default_bound_nonneg : forall n C, 0 <= eig_bound n C None.
Proof. intros. cbn. apply Rmult_le_pos; apply sqrt_pos. Qed.

(** what solve applies *)
Lemma dpi_ok : forall d eps, (forall e, eps = Some e -> 0 < e) ->
  diagonal_pseudo_inverse d eps =
  Ok (mdiag (fun i => if Rlt_dec (match eps with Some e => e | None => eps_mach end) (Rabs (d i)) then 1 / d i else 0)).
Proof.
  intros d eps H. unfold diagonal_pseudo_inverse. destruct eps as [e|]; auto.
  destruct (Rlt_dec 0 e); auto. exfalso; auto.
Qed.

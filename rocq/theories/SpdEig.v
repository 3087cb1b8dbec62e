(** * EigenDecomposition: products, solves, square roots, kernel and range *)
From Coq Require Import List Arith Reals Lia Lra Setoid Morphisms.
From Verif Require Import Tree RMat Spd SpecSpd SpdFacts.
Import ListNotations.
Local Open Scope R_scope.

(** the tolerance solve and sqrt_solve use *)
Definition tol_of (eps : option R) : R := match eps with Some e => e | None => eps_mach end.

Section Obj.
  Variables (e : eig) (mu : nat -> R).
  Hypothesis W : eig_wf e mu.
  Let n := e_n e.
  Let M := mass (e_M e).
  Let V := e_V e.
  Let Ho : meq n n (mmul n (mtr V) (mmul n M V)) mid := wf_orth e mu W.
  Let He : meq n n (mmul n (e_C e) V) (mmul n M (mmul n V (mdiag mu))) := wf_eig e mu W.

  Lemma reconstruct_spec : meq n n (fst (eig_reconstruct e)) (spectral n V (e_d e)).
  Proof. reflexivity. Qed.

  Lemma dot_spec : forall m b, meq n m (eig_dot e b) (mmul n (spectral n V (e_d e)) b).
  Proof.
    intros m b. unfold eig_dot, spectral. fold n V. rewrite !mmul_assoc. reflexivity.
  Qed.

  Lemma dpi_diag : forall eps, (forall x, eps = Some x -> 0 < x) ->
    (forall i, (i < n)%nat -> tol_of eps < e_d e i) ->
    exists Dinv, diagonal_pseudo_inverse (e_d e) eps = Ok (mdiag Dinv) /\
      forall i, (i < n)%nat -> e_d e i * Dinv i = 1.
  Proof.
    intros eps Hp Hd. rewrite dpi_ok by auto. eexists; split; [reflexivity|].
    intros i Hi. cbn beta. fold (tol_of eps). specialize (Hd i Hi).
    assert (0 < tol_of eps). { unfold tol_of. destruct eps as [x|]; [apply Hp; auto|apply eps_pos]. }
    rewrite Rabs_right by lra. destruct (Rlt_dec (tol_of eps) (e_d e i)); [|contradiction].
    field. lra.
  Qed.

  Lemma d_mu : (forall i, (i < n)%nat -> e_delta e <= mu i) -> forall i, (i < n)%nat -> e_d e i = mu i.
  Proof. intros H i Hi. rewrite (wf_d e mu W). apply clip_same. auto. Qed.

  Lemma d_ge : forall i, e_delta e <= e_d e i.
  Proof. intros i. rewrite (wf_d e mu W). apply clip_ge. Qed.

  Lemma d_nonneg : forall i, 0 <= e_d e i.
  Proof. intros i. pose proof (d_ge i). pose proof (wf_delta e mu W). lra. Qed.

  Lemma spectral_mu_None : e_M e = None -> meq n n (spectral n V mu) (e_C e).
  Proof.
    intros E. pose proof (MspecM n (e_C e) M V mu Ho He) as H.
    unfold M in H. rewrite E in H. cbn [mass] in H.
    rewrite <- H. rewrite mmul_id_l, mmul_id_r. reflexivity.
  Qed.

  Lemma solve_spec : forall m b eps, (forall x, eps = Some x -> 0 < x) ->
    (forall i, (i < n)%nat -> e_delta e <= mu i) ->
    (forall i, (i < n)%nat -> tol_of eps < mu i) ->
    (exists x, eig_solve e b eps false = Ok x /\ meq n m (mmul n (e_C e) x) b) /\
    (forall X, e_M e = Some X -> exists x, eig_solve e b eps true = Ok x /\ meq n m (mmul n (e_C e) x) (mmul n X b)).
  Proof.
    intros m b eps Hp H1 H2.
    destruct (dpi_diag eps Hp) as [Dinv [E HD]].
    { intros i Hi. rewrite d_mu; auto. }
    assert (K : forall b', meq n m (mmul n (e_C e) (mmul n V (mmul n (mdiag Dinv) (mmul n (mtr V) b')))) b').
    { intros b'.
      assert (Q : meq n m (mmul n V (mmul n (mdiag Dinv) (mmul n (mtr V) b'))) (mmul n (spectral n V Dinv) b'))
        by (unfold spectral; rewrite !mmul_assoc; reflexivity).
      rewrite Q. rewrite <- mmul_assoc.
      rewrite (C_spec n (e_C e) M V mu He Dinv).
      rewrite (spec_one n M V Ho); [apply mmul_id_l|].
      intros i Hi. rewrite <- d_mu by auto. auto. }
    unfold eig_solve. rewrite E. cbn [bind]. fold n V. split.
    - eexists; split; [reflexivity|]. apply K.
    - intros X EM. rewrite EM. eexists; split; [reflexivity|]. apply K.
  Qed.

  (** W W' = V diag(d) V', and what sqrt_dot returns *)
  Definition root : mat := mmul n V (mdiag (fun i => sqrt (e_d e i))).

  Lemma root_spec : square_root n (spectral n V (e_d e)) root.
  Proof. apply spectral_sqrt. intros; apply d_nonneg. Qed.

  Lemma sqrt_dot_spec : forall m b,
    meq n m (eig_sqrt_dot e b false) (mmul n root b) /\
    meq n m (eig_sqrt_dot e b true) (mmul n (mtr root) b).
  Proof.
    intros m b. unfold eig_sqrt_dot, root. fold n V. split.
    - rewrite mmul_assoc. reflexivity.
    - rewrite mtr_mul, mtr_diag, mmul_assoc. reflexivity.
  Qed.

  Lemma sqrt_solve_spec : forall m b eps, (forall x, eps = Some x -> 0 < x) ->
    (forall i, (i < n)%nat -> tol_of eps < sqrt (e_d e i)) ->
    (exists x, eig_sqrt_solve e b false eps = Ok x /\ meq n m (mmul n M (mmul n root x)) b) /\
    (exists x, eig_sqrt_solve e b true eps = Ok x /\ meq n m (mmul n (mtr root) (mmul n M x)) b).
  Proof.
    intros m b eps Hp Hd.
    assert (exists Dinv, diagonal_pseudo_inverse (fun i => sqrt (e_d e i)) eps = Ok (mdiag Dinv) /\
      forall i, (i < n)%nat -> sqrt (e_d e i) * Dinv i = 1) as [Dinv [E HD]].
    { rewrite dpi_ok by auto. eexists; split; [reflexivity|].
      intros i Hi. cbn beta. fold (tol_of eps). specialize (Hd i Hi).
      assert (0 < tol_of eps). { unfold tol_of. destruct eps as [x|]; [apply Hp; auto|apply eps_pos]. }
      rewrite Rabs_right by lra. destruct (Rlt_dec (tol_of eps) (sqrt (e_d e i))); [|contradiction].
      field. lra. }
    unfold eig_sqrt_solve. rewrite E. cbn [bind]. fold n V. unfold root. split.
    - eexists; split; [reflexivity|].
      assert (Q : meq n m (mmul n (mmul n V (mdiag (fun i => sqrt (e_d e i)))) (mmul n (mdiag Dinv) (mmul n (mtr V) b)))
                          (mmul n (mmul n V (mtr V)) b)).
      { rewrite !mmul_assoc. rewrite <- (mmul_assoc n n n m (mdiag _) (mdiag Dinv)).
        rewrite mdiag_mul. rewrite mdiag_one by auto. rewrite mmul_id_l. reflexivity. }
      rewrite Q. rewrite <- mmul_assoc. rewrite (MVVt n M V Ho). apply mmul_id_l.
    - eexists; split; [reflexivity|].
      rewrite mtr_mul, mtr_diag. rewrite mmul_assoc.
      assert (Q : meq n m (mmul n (mtr V) (mmul n M (mmul n V (mmul n (mdiag Dinv) b)))) (mmul n (mdiag Dinv) b)).
      { rewrite <- (mmul_assoc n n n m M V). rewrite <- (mmul_assoc n n n m (mtr V)).
        rewrite Ho. apply mmul_id_l. }
      rewrite Q. rewrite <- mmul_assoc. rewrite mdiag_mul. rewrite mdiag_one by auto. apply mmul_id_l.
  Qed.
End Obj.

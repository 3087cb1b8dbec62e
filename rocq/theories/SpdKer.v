(** * EigenDecomposition without mass matrix: least squares, kernel, range *)
From Coq Require Import List Arith Reals Lia Lra Setoid Morphisms.
From Verif Require Import Tree RMat Spd SpecSpd SpdFacts SpdEig.
Import ListNotations.
Local Open Scope R_scope.

(** ** sums over the selected indices *)
Lemma seq_S' : forall n, seq 0 (S n) = seq 0 n ++ [n].
Proof. intros. rewrite seq_S. reflexivity. Qed.

Lemma sum_app : forall l l' (f : nat -> R),
  sum (length (l ++ l')) (fun k => f (nth k (l ++ l') O)) =
  sum (length l) (fun k => f (nth k l O)) + sum (length l') (fun k => f (nth k l' O)).
Proof.
  intros l l' f. induction l' as [|a l' IH] using rev_ind.
  - rewrite app_nil_r. simpl. lra.
  - rewrite app_assoc, !app_length. cbn [length]. rewrite !Nat.add_1_r. cbn [sum].
    rewrite !app_length in *.
    rewrite (sum_ext (length l + length l') _ (fun k => f (nth k (l ++ l') O))).
    2:{ intros i Hi. rewrite app_nth1 by (rewrite app_length; lia). reflexivity. }
    rewrite IH. rewrite app_nth2 by (rewrite app_length; lia).
    rewrite (sum_ext (length l') (fun k => f (nth k (l' ++ [a]) O)) (fun k => f (nth k l' O))).
    2:{ intros i Hi. rewrite app_nth1 by lia. reflexivity. }
    rewrite (app_nth2 l' [a]) by lia. rewrite app_length, !Nat.sub_diag. simpl. lra.
Qed.

Lemma sum_filter : forall n mask (f : nat -> R),
  sum (length (filter mask (seq 0 n))) (fun k => f (nth k (filter mask (seq 0 n)) O)) =
  sum n (fun j => if mask j then f j else 0).
Proof.
  induction n; intros mask f; [reflexivity|].
  rewrite seq_S', filter_app, sum_app, IHn. cbn [sum]. f_equal.
  cbn. destruct (mask n); cbn; lra.
Qed.

Lemma nth_filter : forall n mask k, (k < length (filter mask (seq 0 n)))%nat ->
  (nth k (filter mask (seq 0 n)) O < n)%nat /\ mask (nth k (filter mask (seq 0 n)) O) = true.
Proof.
  intros n mask k H. pose proof (nth_In _ O H) as I. apply filter_In in I.
  destruct I as [I1 I2]. apply in_seq in I1. split; [lia|auto].
Qed.

Lemma nodup_filter_nth : forall n mask k h, (k < length (filter mask (seq 0 n)))%nat ->
  (h < length (filter mask (seq 0 n)))%nat ->
  nth k (filter mask (seq 0 n)) O = nth h (filter mask (seq 0 n)) O -> k = h.
Proof.
  intros. eapply (proj1 (NoDup_nth (filter mask (seq 0 n)) O)); eauto.
  apply NoDup_filter, seq_NoDup.
Qed.

Lemma filter_compl : forall n (f g : nat -> bool), (forall i, (i < n)%nat -> g i = negb (f i)) ->
  (length (filter f (seq 0 n)) + length (filter g (seq 0 n)) = n)%nat.
Proof.
  induction n; intros f g H; [reflexivity|].
  rewrite seq_S', !filter_app, !app_length. cbn [filter].
  specialize (IHn f g ltac:(intros; apply H; lia)). rewrite (H n) by lia.
  destruct (f n); cbn; lia.
Qed.

Section Orth.
  Variables (e : eig) (mu : nat -> R).
  Hypothesis W : eig_wf e mu.
  Hypothesis HM : e_M e = None.
  Let n := e_n e.
  Let V := e_V e.
  Let C := e_C e.

  Lemma Ho' : meq n n (mmul n (mtr V) (mmul n mid V)) mid.
  Proof. pose proof (wf_orth e mu W) as H. rewrite HM in H. exact H. Qed.
  Lemma He' : meq n n (mmul n C V) (mmul n mid (mmul n V (mdiag mu))).
  Proof. pose proof (wf_eig e mu W) as H. rewrite HM in H. exact H. Qed.
  Lemma VtV : meq n n (mmul n (mtr V) V) mid.
  Proof. rewrite <- Ho'. rewrite mmul_id_l. reflexivity. Qed.
  Lemma VVt : meq n n (mmul n V (mtr V)) mid.
  Proof. apply left_inv_right_inv. exact VtV. Qed.

  (** coordinates in the eigenbasis *)
  Definition co (x : nat -> R) : nat -> R := mv n (mtr V) x.
  Lemma nsq_co : forall x, nsq n (co x) = nsq n x.
  Proof.
    intros x. unfold co. rewrite <- !qf_id, <- qf_conj. apply qf_ext.
    rewrite mmul_id_l. apply VVt.
  Qed.
  Lemma co_C : forall x i, (i < n)%nat -> co (mv n C x) i = mu i * co x i.
  Proof.
    intros x i Hi. unfold co. rewrite <- mv_mmul.
    assert (E : meq n n (mmul n (mtr V) C) (fun a b => mu a * mtr V a b)).
    { unfold C. rewrite <- (spectral_mu_None e mu W HM). fold n V. unfold spectral.
      rewrite <- mmul_assoc. rewrite VtV. rewrite mmul_id_l. rewrite mmul_diag_l. reflexivity. }
    unfold mv. rewrite (sum_ext n _ (fun j => mu i * (mtr V i j * x j))).
    - apply sum_scal.
    - intros j Hj. rewrite (E i j Hi Hj). ring.
  Qed.
  Lemma co_sub : forall x y i, co (fun a => x a - y a) i = co x i - co y i.
  Proof. intros. unfold co, mv. rewrite <- sum_sub. apply sum_ext. intros; ring. Qed.
  Lemma co_inv : forall x i, (i < n)%nat -> x i = sum n (fun j => co x j * V i j).
  Proof.
    intros x i Hi. rewrite <- (mv_id n x i Hi).
    transitivity (mv n (mmul n V (mtr V)) x i).
    - unfold mv. apply sum_ext. intros j Hj. rewrite (VVt i j Hi Hj). reflexivity.
    - rewrite mv_mmul. unfold mv at 1. apply sum_ext. intros j Hj. unfold co. ring.
  Qed.
  Lemma co_ext : forall x y, (forall i, (i < n)%nat -> x i = y i) -> forall i, co x i = co y i.
  Proof. intros. unfold co. apply mv_ext. auto. Qed.
  Lemma co_spectral : forall d x i, (i < n)%nat -> co (mv n (spectral n V d) x) i = d i * co x i.
  Proof.
    intros d x i Hi. unfold co. rewrite <- mv_mmul.
    assert (E : meq n n (mmul n (mtr V) (spectral n V d)) (fun a b => d a * mtr V a b)).
    { unfold spectral. rewrite <- mmul_assoc. rewrite VtV. rewrite mmul_id_l. rewrite mmul_diag_l. reflexivity. }
    unfold mv. rewrite (sum_ext n _ (fun j => d i * (mtr V i j * x j))).
    - apply sum_scal.
    - intros j Hj. rewrite (E i j Hi Hj). ring.
  Qed.

  Lemma mu_eigenvalue : forall k, (k < n)%nat -> eigenvalue n C (mu k).
  Proof.
    intros k Hk. exists (fun a => V a k). split.
    - exact (V_nonzero n mid V Ho' k Hk).
    - intros i Hi. rewrite (eigen_column n C mid V mu He' k i Hk Hi). rewrite mv_id by auto. reflexivity.
  Qed.

  Lemma CV : forall k i, (k < n)%nat -> (i < n)%nat -> mv n C (fun a => V a k) i = mu k * V i k.
  Proof.
    intros k i Hk Hi. rewrite (eigen_column n C mid V mu He' k i Hk Hi). rewrite mv_id by auto. reflexivity.
  Qed.

  (** *** solve *)
  Lemma solve_form : forall m b eps, (forall x, eps = Some x -> 0 < x) ->
    exists Dinv X, eig_solve e b eps false = Ok X /\ meq n m X (mmul n (spectral n V Dinv) b) /\
      forall i, Dinv i = if Rlt_dec (tol_of eps) (Rabs (e_d e i)) then 1 / e_d e i else 0.
  Proof.
    intros m b eps Hp. unfold eig_solve. rewrite dpi_ok by auto. cbn [bind].
    eexists; eexists. split; [reflexivity|]. split.
    - fold n V. unfold spectral. rewrite !mmul_assoc. reflexivity.
    - intros i. reflexivity.
  Qed.

  Lemma tol_pos : forall eps, (forall x, eps = Some x -> 0 < x) -> 0 < tol_of eps.
  Proof. intros eps Hp. unfold tol_of. destruct eps as [x|]; [apply Hp; auto|apply eps_pos]. Qed.

  Lemma consistent : forall m b eps, (forall x, eps = Some x -> 0 < x) ->
    (forall l, eigenvalue n C l -> l = 0 \/ (e_delta e < l /\ tol_of eps < l)) ->
    (exists y, meq n m (mmul n C y) b) ->
    exists X, eig_solve e b eps false = Ok X /\ meq n m (mmul n C X) b.
  Proof.
    intros m b eps Hp Hg [y Hy].
    destruct (solve_form m b eps Hp) as [Dinv [X [E [EX ED]]]].
    exists X. split; [exact E|]. rewrite EX, <- Hy.
    pose proof (spectral_mu_None e mu W HM) as HC. fold n V C in HC.
    rewrite <- HC.
    rewrite <- (mmul_assoc n n n m (spectral n V Dinv)). rewrite <- mmul_assoc.
    assert (Q : meq n n (mmul n (spectral n V mu) (mmul n (spectral n V Dinv) (spectral n V mu))) (spectral n V mu)).
    { assert (S1 : forall d d', meq n n (mmul n (spectral n V d) (spectral n V d')) (spectral n V (fun i => d i * d' i))).
      { intros d d'. rewrite <- (spectral_mul n mid V Ho' d d'). rewrite mmul_id_l. reflexivity. }
      rewrite !S1. apply spectral_ext. intros i Hi. rewrite ED. rewrite (wf_d e mu W).
      pose proof (tol_pos eps Hp). pose proof (wf_delta e mu W).
      destruct (Hg (mu i) (mu_eigenvalue i Hi)) as [Z|[Z1 Z2]].
      - rewrite Z. ring.
      - rewrite clip_same by lra. rewrite Rabs_right by lra.
        destruct (Rlt_dec (tol_of eps) (mu i)); [|contradiction]. field. lra. }
    rewrite Q. reflexivity.
  Qed.

  Hypothesis Hdelta : e_delta e = 0.
  Hypothesis Hpsd : semidefinite n C.

  Lemma mu_nonneg : forall i, (i < n)%nat -> 0 <= mu i.
  Proof.
    intros i Hi. apply (bound_mu n C mid V mu Ho' He' 0); auto.
    intros x. specialize (Hpsd x). lra.
  Qed.
  Lemma d_is_mu : forall i, (i < n)%nat -> e_d e i = mu i.
  Proof. intros. apply (d_mu e mu W); auto. rewrite Hdelta. apply mu_nonneg. Qed.

  Lemma pinv : forall b eps, (forall x, eps = Some x -> 0 < x) ->
    (forall l, eigenvalue n C l -> l = 0 \/ tol_of eps < l) ->
    exists X, eig_solve e (col b) eps false = Ok X /\ least_squares n C b (fun i => X i O).
  Proof.
    intros b eps Hp Hg.
    destruct (solve_form 1 (col b) eps Hp) as [Dinv [X [E [EX ED]]]].
    exists X. split; [exact E|].
    set (x := fun i => X i O).
    assert (Hx : forall i, (i < n)%nat -> x i = mv n (spectral n V Dinv) b i).
    { intros i Hi. exact (EX i O Hi ltac:(lia)). }
    assert (Cx : forall i, (i < n)%nat -> co x i = Dinv i * co b i).
    { intros i Hi. rewrite (co_ext x _ Hx i). apply co_spectral; auto. }
    assert (HD : forall i, (i < n)%nat -> (mu i = 0 /\ Dinv i = 0) \/ (mu i <> 0 /\ mu i * Dinv i = 1)).
    { intros i Hi. rewrite ED, d_is_mu by auto. pose proof (tol_pos eps Hp).
      destruct (Hg (mu i) (mu_eigenvalue i Hi)) as [Z|Z].
      - left. split; auto. rewrite Z, Rabs_R0. destruct (Rlt_dec (tol_of eps) 0); [lra|auto].
      - right. split; [lra|]. rewrite Rabs_right by lra.
        destruct (Rlt_dec (tol_of eps) (mu i)); [|contradiction]. field. lra. }
    assert (Hr : forall z, nsq n (residual n C z b) = sum n (fun i => (mu i * co z i - co b i) * (mu i * co z i - co b i))).
    { intros z. rewrite <- nsq_co. unfold nsq. apply sum_ext. intros i Hi.
      assert (F : co (residual n C z b) i = mu i * co z i - co b i).
      { unfold residual. rewrite (co_sub (mv n C z) b i). rewrite co_C by auto. reflexivity. }
      rewrite F. reflexivity. }
    assert (Hterm : forall y i, (i < n)%nat ->
       (mu i * co x i - co b i) * (mu i * co x i - co b i) <= (mu i * co y i - co b i) * (mu i * co y i - co b i)).
    { intros y i Hi. rewrite Cx by auto. destruct (HD i Hi) as [[Z1 Z2]|[Z1 Z2]].
      - rewrite Z1, Z2. lra.
      - rewrite <- Rmult_assoc, Z2. ring_simplify ((1 * co b i - co b i) * (1 * co b i - co b i)).
        apply Rle_0_sqr. }
    intros y. split.
    - rewrite !Hr. apply sum_le. intros i Hi. apply Hterm; auto.
    - intros Hle. rewrite !Hr in Hle.
      assert (Heq : sum n (fun i => (mu i * co y i - co b i) * (mu i * co y i - co b i) -
                                    (mu i * co x i - co b i) * (mu i * co x i - co b i)) = 0).
      { rewrite sum_sub. apply Rle_antisym; [lra|].
        rewrite <- sum_sub. apply sum_nonneg. intros i Hi. pose proof (Hterm y i Hi). lra. }
      assert (Hz : forall i, (i < n)%nat -> (mu i * co y i - co b i) * (mu i * co y i - co b i) -
                                    (mu i * co x i - co b i) * (mu i * co x i - co b i) = 0).
      { intros i Hi. refine (sum_nonneg_0 n _ _ Heq i Hi). intros k Hk. pose proof (Hterm y k Hk). cbn beta. lra. }
      rewrite <- (nsq_co x), <- (nsq_co y). unfold nsq. apply sum_le. intros i Hi.
      destruct (HD i Hi) as [[Z1 Z2]|[Z1 Z2]].
      + rewrite Cx by auto. rewrite Z2. ring_simplify (0 * co b i * (0 * co b i)). apply Rle_0_sqr.
      + specialize (Hz i Hi). cbn beta in Hz. rewrite !(Cx i Hi) in *.
        rewrite <- Rmult_assoc, Z2 in Hz.
        replace (1 * co b i - co b i) with 0 in Hz by ring.
        assert (mu i * co y i - co b i = 0) by (apply Rsqr_0_uniq; unfold Rsqr; lra).
        assert (Ey : co y i = Dinv i * co b i).
        { replace (co b i) with (mu i * co y i) by lra.
          rewrite <- Rmult_assoc, (Rmult_comm (Dinv i)), Z2. ring. }
        rewrite Ey. lra.
  Qed.

  (** *** kernel and range *)
  Variable tol : R.
  Hypothesis Htol : 0 < tol.
  Hypothesis Hgap : forall l, eigenvalue n C l -> l = 0 \/ tol < l.

  Lemma below_0 : forall i, (i < n)%nat -> below tol (e_d e) i = true <-> mu i = 0.
  Proof.
    intros i Hi. unfold below. rewrite d_is_mu by auto.
    destruct (Hgap (mu i) (mu_eigenvalue i Hi)) as [Z|Z].
    - rewrite Z, Rabs_R0. destruct (Rlt_dec 0 tol); [tauto|contradiction].
    - rewrite Rabs_right by lra. destruct (Rlt_dec (mu i) tol); split; intros; try lra; try discriminate.
  Qed.
  Lemma above_not : forall i, (i < n)%nat -> above tol (e_d e) i = negb (below tol (e_d e) i).
  Proof.
    intros i Hi. unfold below, above. rewrite d_is_mu by auto.
    destruct (Hgap (mu i) (mu_eigenvalue i Hi)) as [Z|Z].
    - rewrite Z, Rabs_R0. destruct (Rlt_dec 0 tol); destruct (Rlt_dec tol 0); auto; lra.
    - rewrite Rabs_right by lra. destruct (Rlt_dec (mu i) tol); destruct (Rlt_dec tol (mu i)); auto; lra.
  Qed.

  Lemma columns_basis : forall mask (Q : (nat -> R) -> Prop),
    (forall j, (j < n)%nat -> mask j = true -> Q (fun i => V i j)) ->
    (forall x, Q x -> forall j, (j < n)%nat -> mask j = false -> co x j = 0) ->
    orthonormal_basis n Q (columns n V mask).
  Proof.
    intros mask Q H1 H2. unfold columns. set (idx := filter mask (seq 0 n)).
    assert (Hn : forall k, (k < length idx)%nat -> nth k (map (fun j i => V i j) idx) (fun _ => 0) = (fun i => V i (nth k idx O))).
    { intros k Hk. rewrite (nth_indep _ (fun _ => 0) ((fun j i => V i j) O)) by (rewrite map_length; auto).
      apply (map_nth (fun j i => V i j)). }
    unfold orthonormal_basis. rewrite map_length. repeat split.
    - intros k Hk. rewrite Hn by auto. destruct (nth_filter n mask k Hk). apply H1; auto.
    - intros k h Hk Hh. rewrite !Hn by auto.
      destruct (nth_filter n mask k Hk) as [A _]. destruct (nth_filter n mask h Hh) as [B _].
      fold idx in A, B. pose proof (VtV _ _ A B) as E. unfold mmul, mtr in E. unfold inner. rewrite E.
      unfold mid. destruct (Nat.eqb_spec (nth k idx O) (nth h idx O)) as [F|F].
      + apply nodup_filter_nth in F; auto. subst. rewrite Nat.eqb_refl. auto.
      + destruct (Nat.eqb_spec k h); [congruence|auto].
    - intros x Hx. exists (fun k => co x (nth k idx O)). intros i Hi.
      rewrite (co_inv x i Hi).
      rewrite (sum_ext (length idx) _ (fun k => (fun j => co x j * V i j) (nth k idx O))).
      2:{ intros k Hk. rewrite Hn by auto. reflexivity. }
      unfold idx. rewrite (sum_filter n mask (fun j => co x j * V i j)).
      apply sum_ext. intros j Hj. destruct (mask j) eqn:Em; auto. rewrite (H2 x Hx j Hj Em). ring.
  Qed.

  Lemma kernel_basis : orthonormal_basis n (kernel n C) (eig_nullspace e tol).
  Proof.
    unfold eig_nullspace. apply columns_basis.
    - intros j Hj Hm i Hi. apply below_0 in Hm; auto. rewrite CV by auto. rewrite Hm. ring.
    - intros x Hx j Hj Hm.
      assert (E : co (mv n C x) j = 0).
      { unfold co, mv at 1. apply sum_zero. intros i Hi. rewrite Hx by auto. ring. }
      rewrite co_C in E by auto. apply Rmult_integral in E. destruct E as [E|E]; auto.
      apply below_0 in E; auto. congruence.
  Qed.

  Lemma range_basis : orthonormal_basis n (image n C) (eig_range e tol).
  Proof.
    unfold eig_range. apply columns_basis.
    - intros j Hj Hm. rewrite above_not in Hm by auto.
      assert (Hz : mu j <> 0).
      { intro Z. apply below_0 in Z; auto. rewrite Z in Hm. discriminate. }
      exists (fun a => V a j / mu j). intros i Hi.
      transitivity (/ mu j * mv n C (fun a => V a j) i).
      + rewrite CV by auto. field. auto.
      + unfold mv. rewrite <- sum_scal. apply sum_ext. intros a Ha. unfold Rdiv. ring.
    - intros x [y Hy] j Hj Hm. rewrite above_not in Hm by auto.
      assert (Z : below tol (e_d e) j = true) by (destruct (below tol (e_d e) j); auto).
      apply below_0 in Z; auto. rewrite (co_ext x _ Hy). rewrite co_C by auto. rewrite Z. ring.
  Qed.

  Lemma rank_eq : eig_rank e tol = length (eig_range e tol) /\
                  (eig_rank e tol + length (eig_nullspace e tol) = n)%nat.
  Proof.
    unfold eig_rank, eig_range, eig_nullspace, columns. rewrite !map_length. split; auto.
    rewrite Nat.add_comm. apply filter_compl. intros. apply above_not; auto.
  Qed.
End Orth.

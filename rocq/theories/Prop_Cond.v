(** * C56: conditioning a GaussianField on linear observations Ax = e

    [conditional n k A e mu K m S] (SpecGauss.v): N(m,S) is N(mu,K) given Ax = e by
    the formulas of the documentation.  [draws]: see C55.  The observation is a
    matrix or an array of indices ([obs_matrix]: the matrix of the indices). *)
From Coq Require Import List Arith Reals Lia Lra Setoid Morphisms Bool.
From Verif Require Import Tree RMat Spd SpecSpd SpdFacts SpdEig SpdKer Prop_Eig Prop_Chol Gauss SpecGauss
  GaussFacts GaussCond GaussKrig GaussField Prop_Sample.
Import ListNotations.
Local Open Scope R_scope.

(** Every returned sample satisfies the constraint: AX = e, in each column (e may
    have one column for all samples).  Any mode, any matrix object, with or
    without support. *)
Theorem C56_hard : forall lx ls f rnd A M e k z md X,
  gf_condition lx ls f rnd A e Sample k z md = Ok (CSample X) ->
  obs_matrix (g_n f) A = Ok M -> a_c M = g_n f -> a_r e = a_r M ->
  (forall V, g_supp f = Some V -> a_r V = g_n f) -> exact_solver ls (a_r M) ->
  a_r X = g_n f /\ (a_c e = a_c X \/ a_c e = 1%nat) /\
  forall i j, (i < a_r M)%nat -> (j < a_c X)%nat ->
    sum (g_n f) (fun l => a_m M i l * a_m X l j) = a_m e i (if (a_c e =? a_c X)%nat then j else 0%nat).
Proof. exact cond_hard. Qed.

(** For indices: the sample has the prescribed values there. *)
Theorem C56_hard_indices : forall lx ls f rnd l e k z md X,
  gf_condition lx ls f rnd (Indices l) e Sample k z md = Ok (CSample X) ->
  a_r e = length l -> (forall V, g_supp f = Some V -> a_r V = g_n f) -> exact_solver ls (length l) ->
  forall i j, (i < length l)%nat -> (j < a_c X)%nat ->
    (nth i l 0 < g_n f)%nat /\ a_m X (nth i l 0%nat) j = a_m e i (if (a_c e =? a_c X)%nat then j else 0%nat).
Proof.
  intros lx ls f rnd l e k z md X H He Hs Hx i j Hi Hj.
  assert (EM : exists M, obs_matrix (g_n f) (Indices l) = Ok M).
  { unfold gf_condition in H. apply bind_ok in H. destruct H as (u & _ & H).
    apply bind_ok in H. destruct H as (mu & _ & H). apply bind_ok in H. destruct H as (M & EM & _). eauto. }
  destruct EM as (M & EM). pose proof EM as EM'. unfold obs_matrix in EM'.
  destruct (forallb (fun i => i <? g_n f)%nat l) eqn:Ef; [|discriminate]. injection EM' as <-.
  rewrite forallb_forall in Ef.
  assert (Hl : (nth i l 0 < g_n f)%nat) by (apply Nat.ltb_lt, Ef, nth_In; exact Hi).
  split; [exact Hl|].
  destruct (C56_hard _ _ _ _ _ _ _ _ _ _ _ H EM eq_refl He Hs Hx) as (_ & _ & Q).
  specialize (Q i j Hi Hj). cbn [a_m] in Q. rewrite <- Q. unfold mid.
  rewrite (sum_ext (g_n f) _ (fun c => if (c =? nth i l 0)%nat then a_m X c j else 0)).
  - rewrite sum_delta by exact Hl. reflexivity.
  - intros c Hc. rewrite (Nat.eqb_sym c). destruct (nth i l 0 =? c)%nat; ring.
Qed.

(** Contradictory constraints: no sample is returned (an error, or no columns). *)
Theorem C56_contradictory : forall lx ls f rnd A M e k z md X,
  obs_matrix (g_n f) A = Ok M -> a_c M = g_n f -> a_r e = a_r M -> a_c e = 1%nat ->
  (forall V, g_supp f = Some V -> a_r V = g_n f) -> exact_solver ls (a_r M) ->
  ~ (exists x, forall i, (i < a_r M)%nat -> mv (g_n f) (a_m M) x i = a_m e i 0%nat) ->
  gf_condition lx ls f rnd A e Sample k z md = Ok (CSample X) -> a_c X = 0%nat.
Proof.
  intros lx ls f rnd A M e k z md X HM Hc He Hc1 Hs Hx N H.
  destruct (C56_hard _ _ _ _ _ _ _ _ _ _ _ H HM Hc He Hs Hx) as (_ & _ & Q).
  destruct (Nat.eq_dec (a_c X) 0) as [L|L]; [exact L|]. exfalso. apply N. exists (fun l => a_m X l O).
  intros i Hi. unfold mv. rewrite (Q i O Hi ltac:(lia)). destruct (a_c e =? a_c X)%nat; reflexivity.
Qed.

(** In mode 'covariance' the samples are draws from the conditional law. *)
Theorem C56_covariance : forall lx ls f o n k K rnd A M e ns,
  g_cov f = Some o -> stands_for lx n o K ->
  g_n f = n -> a_r (g_mean f) = n -> a_c (g_mean f) = 1%nat -> g_supp f = None ->
  obs_matrix n A = Ok M -> a_r M = k -> a_c M = n -> a_r e = k -> a_c e = 1%nat ->
  exact_solver ls k -> definite k (AKAt n (a_m M) K) ->
  exists m S, conditional n k (a_m M) (fun i => a_m e i O) (mean0 f) K m S /\
    draws n n (fun z => sample_of (gf_condition lx ls f rnd A e Sample ns (Some z) Covariance)) m S /\
    gf_condition lx ls f rnd A e Sample ns None Covariance =
    gf_condition lx ls f rnd A e Sample ns (Some (mkarr n ns rnd)) Covariance.
Proof.
  intros lx ls f o n k K rnd A M e ns Ho St Hn Hr Hc Hs HM Mr Mc Er Ec Hx D.
  destruct (stands_spec _ _ _ _ St) as (Sz & Sy & Dt & _). destruct (noise_cov _ _ _ _ _ Ho St) as (W & W1 & W2).
  eapply krig_draws; eauto. intros b Hb. unfold times_K. rewrite Ho. apply Dt. exact Hb.
Qed.
(** In mode 'precision' too, with K the inverse of the precision matrix. *)
Theorem C56_precision : forall lx ls f o n k Q K rnd A M e ns,
  g_prec f = Some o -> invertible lx n o Q -> inverse n Q K ->
  g_n f = n -> a_r (g_mean f) = n -> a_c (g_mean f) = 1%nat -> g_supp f = None ->
  obs_matrix n A = Ok M -> a_r M = k -> a_c M = n -> a_r e = k -> a_c e = 1%nat ->
  exact_solver ls k -> definite k (AKAt n (a_m M) K) ->
  exists m S, conditional n k (a_m M) (fun i => a_m e i O) (mean0 f) K m S /\
    draws n n (fun z => sample_of (gf_condition lx ls f rnd A e Sample ns (Some z) Precision)) m S /\
    gf_condition lx ls f rnd A e Sample ns None Precision =
    gf_condition lx ls f rnd A e Sample ns (Some (mkarr n ns rnd)) Precision.
Proof.
  intros lx ls f o n k Q K rnd A M e ns Ho St IK Hn Hr Hc Hs HM Mr Mc Er Ec Hx D.
  destruct (stands_spec _ _ _ _ (invertible_stands _ _ _ _ St)) as (Sz & _).
  destruct (invertible_spec _ _ _ _ St) as (S & I1 & I2 & Sv & W & W1 & W2).
  assert (ES : meq n n S K) by (apply (inverse_unique n Q); [exact IK|apply I1]).
  eapply (krig_draws lx ls f Precision o n k K W rnd A M e ns); eauto.
  - unfold symmetric in *. rewrite <- ES. exact I2.
  - unfold square_root in *. rewrite W1. exact ES.
  - intros z Hz. unfold noise. rewrite Ho. apply W2. exact Hz.
  - intros b Hb. unfold times_K. rewrite Ho. destruct (Sv b Hb) as (y & Ey & Hy). exists y. split; [exact Ey|].
    intros m. rewrite Hy, ES. reflexivity.
Qed.

(** AKA' is definite if K is and the rows of A are linearly independent; the rows
    for distinct indices are. *)
Theorem C56_independent :
  (forall n k A K, definite n K -> independent k n A -> definite k (AKAt n A K)) /\
  (forall n l M, NoDup l -> obs_matrix n (Indices l) = Ok M -> independent (length l) n (a_m M)).
Proof.
  split; [exact independent_definite|]. intros n l M ND HM. unfold obs_matrix in HM.
  destruct (forallb (fun i => i <? n)%nat l) eqn:Ef; [|discriminate]. injection HM as <-. rewrite forallb_forall in Ef.
  intros y H i Hi. cbn [a_m] in H.
  assert (Hl : (nth i l 0 < n)%nat) by (apply Nat.ltb_lt, Ef, nth_In; exact Hi).
  specialize (H _ Hl). rewrite <- H. symmetry.
  rewrite (sum_ext (length l) _ (fun a => if (a =? i)%nat then y a else 0)).
  - apply sum_delta. exact Hi.
  - intros a Ha. unfold mid. destruct (Nat.eqb_spec a i) as [->|N]; [rewrite Nat.eqb_refl; ring|].
    destruct (Nat.eqb_spec (nth a l 0%nat) (nth i l 0%nat)) as [E|]; [|ring].
    exfalso. apply N. apply (proj1 (NoDup_nth l 0%nat) ND); auto.
Qed.

(** What the conditional law is: it lives on the constraint (Am = e, AS = 0), S is
    a covariance matrix below K, and m is the point of the constraint closest to the
    mean in the metric of K^-1. *)
Theorem C56_conditional : forall n k A K e mu m S, symmetric n K -> semidefinite n K ->
  conditional n k A e mu K m S ->
  (forall i, (i < k)%nat -> mv n A m i = e i) /\ meq k n (mmul n A S) mzero /\
  symmetric n S /\ semidefinite n S /\ (forall x, qf n S x <= qf n K x) /\
  (forall Q, inverse n K Q -> semidefinite n Q -> forall x, (forall i, (i < k)%nat -> mv n A x i = e i) ->
     qf n Q (fun i => m i - mu i) <= qf n Q (fun i => x i - mu i)).
Proof.
  intros n k A K e mu m S Sy Sd HC.
  split; [apply (cond_mean_ok n k A K e mu m S HC)|].
  split; [apply (cond_cov_zero n k A K e mu m S HC)|].
  split; [apply (cond_cov_sym n k A K e mu m S Sy HC)|].
  split; [apply (cond_cov_psd n k A K e mu m S Sy HC); auto|].
  split; [apply (cond_cov_le n k A K e mu m S Sy HC); auto|].
  apply (cond_mean_min n k A K e mu m S Sy HC).
Qed.

(** ** output='field' *)

(** The mean of the returned field satisfies the constraint. *)
Theorem C56_field_mean : forall lx ls f rnd A M e k z md g,
  gf_condition lx ls f rnd A e Field k z md = Ok (CField g) ->
  obs_matrix (g_n f) A = Ok M -> a_c M = g_n f -> a_r e = a_r M -> a_r (g_mean f) = g_n f ->
  (forall V, g_supp f = Some V -> a_r V = g_n f) -> exact_solver ls (a_r M) ->
  a_r (g_mean g) = g_n f /\ a_c (g_mean g) = a_c e /\
  forall i j, (i < a_r M)%nat -> (j < a_c e)%nat ->
    sum (g_n f) (fun l => a_m M i l * a_m (g_mean g) l j) = a_m e i j.
Proof. exact cond_field_mean. Qed.

(** In mode 'covariance' the field has the conditional mean, and the covariance
    VDV' on its support V differs from the conditional covariance by at most the
    eigenvalue bound of the decomposition and the cut-off 1e-12. *)
Theorem C56_field_partial : forall lx ls f o n k K rnd A M e ns z m S,
  g_cov f = Some o -> stands_for lx n o K -> meq n n (a_m (spd_matrix o)) K -> (0 < n)%nat ->
  g_n f = n -> a_r (g_mean f) = n -> a_c (g_mean f) = 1%nat -> g_supp f = None ->
  obs_matrix n A = Ok M -> a_r M = k -> a_c M = n -> a_r e = k -> a_c e = 1%nat ->
  exact_solver ls k -> definite k (AKAt n (a_m M) K) -> semidefinite n K ->
  conditional n k (a_m M) (fun i => a_m e i O) (mean0 f) K m S ->
  (forall C, meq n n C S -> eigh_ok n C None (lx_eigh lx n C None)) ->
  exists g r V D, gf_condition lx ls f rnd A e Field ns z Covariance = Ok (CField g) /\
    g_n g = n /\ a_r (g_mean g) = n /\ a_c (g_mean g) = 1%nat /\ (forall i, (i < n)%nat -> mean0 g i = m i) /\
    g_cov g = Some (SPlain r D) /\ g_supp g = Some (mkarr n r V) /\
    meq r r (mmul n (mtr V) V) mid /\
    (forall x, qf n S x <= qf n (mmul r V (mmul r D (mtr V))) x + / 10 ^ 12 * nsq n x) /\
    (forall x, qf n (mmul r V (mmul r D (mtr V))) x <= qf n S x + eig_bound n S None * nsq n x).
Proof.
  intros lx ls f o n k K rnd A M e ns z m S Ho St HG Hn0 Hn Hr Hc Hs HM Mr Mc Er Ec Hx D Sd HC Hex.
  destruct (stands_spec _ _ _ _ St) as (Sz & Sy & Dt & _).
  assert (Kx : applies n (times_K f Covariance) K).
  { intros b Hb. unfold times_K. rewrite Ho. apply Dt. exact Hb. }
  destruct (cond_field_ok lx ls f o n k K rnd A M e ns z m S Ho Sz Hn0 Hn Hr Hc Hs HM Mr Mc Er Ec Sy Kx HG Hx D HC Hex)
    as (C & e' & g & E1 & E2 & E3 & E4 & E5 & E6 & E7 & E8 & r & V & Dg & F1 & F2 & F3 & F4 & F5 & F6).
  exists g, r, V, Dg. repeat (split; [first [assumption|exact E6]|]).
  destruct (eig_init_wf _ _ _ _ _ _ E3 (Hex C E2)) as (En & EC & EM & Ed & nu & W).
  destruct (C53_perturbed lx n C None e' E3 (Hex C E2)) as (E & P1 & P2 & P3 & P4 & P5 & _).
  pose proof (update_support_rest e' nu n En EM W) as UR. cbv zeta in UR.
  assert (QV : forall x, qf n (mmul r V (mmul r Dg (mtr V))) x =
    qf n (fun i j => sum n (fun l => if in_support e' l then e_V e' i l * e_d e' l * e_V e' j l else 0)) x).
  { intros x. apply qf_ext. intros i j Hi Hj. apply F6; auto. }
  assert (QR : forall x, qf n (fst (eig_reconstruct e')) x = qf n S x + qf n E x).
  { intros x. rewrite (qf_ext n _ _ x P5), qf_add. f_equal. apply qf_ext. exact E2. }
  assert (EB : eig_bound n C None = eig_bound n S None) by (cbn; rewrite (fro_ext n C S E2); reflexivity).
  destruct (C56_conditional n k (a_m M) K _ _ m S Sy Sd HC) as (_ & _ & _ & SdS & _).
  split; intros x; rewrite QV; destruct (UR x) as [U1 U2]; rewrite QR in U1, U2; pose proof (P2 x).
  - lra.
  - assert (B0 : bounded_below n C mid 0).
    { intros y. rewrite Rmult_0_l. rewrite (qf_ext n C S y E2). apply SdS. }
    assert (L0 : 0 <= eig_bound n C None) by apply default_bound_nonneg.
    pose proof (P4 0 L0 B0 x) as P6. rewrite Rminus_0_r, EB in P6. lra.
Qed.

(** ** What is not true *)

(** "The resulting field has support on a reduced vector space": the bound of the
    decomposition lifts the zero eigenvalues over the cut-off, so that (unless S is
    tiny) the support is everything and the observed quantities keep a variance. *)
Theorem C56_support_refuted : forall lx ls f o n k K rnd A M e ns z m S,
  g_cov f = Some o -> stands_for lx n o K -> meq n n (a_m (spd_matrix o)) K -> (0 < n)%nat ->
  g_n f = n -> a_r (g_mean f) = n -> a_c (g_mean f) = 1%nat -> g_supp f = None ->
  obs_matrix n A = Ok M -> a_r M = k -> a_c M = n -> a_r e = k -> a_c e = 1%nat ->
  exact_solver ls k -> definite k (AKAt n (a_m M) K) ->
  conditional n k (a_m M) (fun i => a_m e i O) (mean0 f) K m S ->
  (forall C, meq n n C S -> eigh_ok n C None (lx_eigh lx n C None)) ->
  / 10 ^ 4 <= fro n S ->
  exists g V D, gf_condition lx ls f rnd A e Field ns z Covariance = Ok (CField g) /\
    g_cov g = Some (SPlain n D) /\ g_supp g = Some (mkarr n n V) /\
    forall x, nonzero n x -> 0 < qf n (mmul n V (mmul n D (mtr V))) x.
Proof.
  intros lx ls f o n k K rnd A M e ns z m S Ho St HG Hn0 Hn Hr Hc Hs HM Mr Mc Er Ec Hx D HC Hex Hf.
  destruct (stands_spec _ _ _ _ St) as (Sz & Sy & Dt & _).
  assert (Kx : applies n (times_K f Covariance) K).
  { intros b Hb. unfold times_K. rewrite Ho. apply Dt. exact Hb. }
  destruct (cond_field_ok lx ls f o n k K rnd A M e ns z m S Ho Sz Hn0 Hn Hr Hc Hs HM Mr Mc Er Ec Sy Kx HG Hx D HC Hex)
    as (C & e' & g & E1 & E2 & E3 & E4 & E5 & E6 & E7 & E8 & r & V & Dg & F1 & F2 & F3 & F4 & F5 & F6).
  destruct (C53_eigenpairs lx n C None None e' E3 (Hex C E2)) as (_ & G1 & _).
  assert (B : / 10 ^ 12 < eig_bound n C None).
  { cbn [eig_bound]. rewrite (fro_ext n C S E2).
    assert (S1 : / 10 ^ 8 < sqrt eps_mach).
    { rewrite <- (sqrt_pow2 (/ 10 ^ 8)) by (left; apply Rinv_0_lt_compat, pow_lt; lra).
      apply sqrt_lt_1_alt. split; [apply pow2_ge_0|]. unfold eps_mach.
      rewrite <- Rinv_pow by (apply pow_nonzero; lra). apply Rinv_lt_contravar.
      - apply Rmult_lt_0_compat; repeat apply pow_lt; lra.
      - rewrite <- pow_mult. change (8 * 2)%nat with 16%nat.
        rewrite !pow_IZR. apply IZR_lt. reflexivity. }
    assert (P4 : 0 < / 10 ^ 4) by (apply Rinv_0_lt_compat, pow_lt; lra).
    assert (P8 : 0 < / 10 ^ 8) by (apply Rinv_0_lt_compat, pow_lt; lra).
    assert (P12 : / 10 ^ 12 = / 10 ^ 8 * / 10 ^ 4).
    { rewrite <- Rinv_mult. f_equal. rewrite <- pow_add. reflexivity. }
    rewrite P12. nra. }
  assert (Hd : forall i, (i < n)%nat -> / 10 ^ 12 < e_d e' i) by (intros i Hi; specialize (G1 i Hi); lra).
  rewrite (update_support_full e' n Hd) in F3. subst r.
  exists g, V, Dg. split; [exact E1|]. split; [exact F1|]. split; [exact F2|].
  intros x (i & Hi & Nx).
  destruct (eig_init_wf _ _ _ _ _ _ E3 (Hex C E2)) as (En & EC & EM & Ed & nu & W).
  destruct (C53_perturbed lx n C None e' E3 (Hex C E2)) as (E & P1 & P2 & P3 & P4 & P5 & _).
  assert (Q : qf n (mmul n V (mmul n Dg (mtr V))) x = qf n (madd C E) x).
  { rewrite <- (qf_ext n _ _ x P5). apply qf_ext. intros a b Ha Hb. rewrite F6 by auto. rewrite <- En in *.
    rewrite reconstruct_sum by auto. apply sum_ext. intros l Hl. unfold in_support.
    specialize (Hd l Hl). assert (0 < / 10 ^ 12) by (apply Rinv_0_lt_compat, pow_lt; lra).
    rewrite Rabs_pos_eq by lra. destruct (Rlt_dec _ _); [reflexivity|contradiction]. }
  rewrite Q. specialize (P3 x). rewrite qf_id in P3.
  assert (N0 : 0 < nsq n x).
  { destruct (Rlt_le_dec 0 (nsq n x)) as [L|L]; [exact L|]. exfalso. apply Nx. apply (nsq_zero n x); auto.
    pose proof (nsq_nonneg n x). lra. }
  assert (0 < / 10 ^ 12) by (apply Rinv_0_lt_compat, pow_lt; lra). nra.
Qed.

(** The returned field cannot be sampled: its covariance is a bare SPDMatrix. *)
Theorem C56_field_sample_refuted : forall lx ls f rnd A e k z md g,
  gf_condition lx ls f rnd A e Field k z md = Ok (CField g) ->
  forall rnd' k' z' md' X, gf_sample g rnd' k' z' md' <> Ok X.
Proof.
  intros lx ls f rnd A e k z md g H rnd' k' z' md' X. unfold gf_condition in H.
  apply bind_ok in H. destruct H as (u & _ & H).
  apply bind_ok in H. destruct H as (mu & _ & H).
  apply bind_ok in H. destruct H as (M & _ & H).
  apply bind_ok in H. destruct H as ([[[Vk Ak] mk] ek] & Er & H).
  apply bind_ok in H. destruct H as (kk & Ek & H).
  apply bind_ok in H. destruct H as (g' & EX & H). injection H as <-.
  unfold cond_field in EX.
  apply bind_ok in EX. destruct EX as (Amu & _ & EX).
  apply bind_ok in EX. destruct EX as (r & _ & EX).
  destruct kk as [[KAT AKAT]|]; [|discriminate].
  do 5 (apply bind_ok in EX; destruct EX as (? & _ & EX)).
  destruct md; try discriminate. destruct (g_cov f) as [o|]; [|discriminate].
  do 4 (apply bind_ok in EX; destruct EX as (? & _ & EX)).
  apply bind_ok in EX. destruct EX as (g0 & Eg0 & EX).
  assert (P0 : g_prec g0 = None).
  { unfold gf_init in Eg0. destruct (g_n f =? 0)%nat; [discriminate|].
    do 2 (apply bind_ok in Eg0; destruct Eg0 as (? & _ & Eg0)). cbn [set_precision bind set_support] in Eg0.
    injection Eg0 as <-. reflexivity. }
  unfold gf_update_support in EX. destruct (g_cov g0) as [[e'| |]|]; try discriminate.
  do 2 (apply bind_ok in EX; destruct EX as (? & _ & EX)). injection EX as <-.
  unfold gf_sample. cbn [g_cov g_prec]. rewrite P0. destruct md'; try discriminate.
  destruct z' as [z'|]; cbn [bind].
  - match goal with |- context[(?a =? ?b)%nat] => destruct (a =? b)%nat end; discriminate.
  - discriminate.
Qed.

(** output='field' in mode 'precision', and every soft constraint: always an error. *)
Theorem C56_precision_field_refuted : forall lx ls f rnd A e k z g,
  gf_condition lx ls f rnd A e Field k z Precision <> Ok g.
Proof.
  intros lx ls f rnd A e k z g H. unfold gf_condition in H.
  apply bind_ok in H. destruct H as (u & _ & H).
  apply bind_ok in H. destruct H as (mu & _ & H).
  apply bind_ok in H. destruct H as (M & _ & H).
  apply bind_ok in H. destruct H as ([[[Vk Ak] mk] ek] & Er & H).
  apply bind_ok in H. destruct H as (kk & Ek & H).
  apply bind_ok in H. destruct H as (g' & EX & H).
  unfold cond_field in EX.
  apply bind_ok in EX. destruct EX as (Amu & _ & EX).
  apply bind_ok in EX. destruct EX as (r & _ & EX).
  destruct kk as [[KAT AKAT]|]; [|discriminate].
  do 5 (apply bind_ok in EX; destruct EX as (? & _ & EX)). discriminate.
Qed.
Theorem C56_soft_refuted : forall ls f A e Ko out md X,
  gf_condition_soft ls f A e Ko out md <> Ok X.
Proof.
  intros ls f A e Ko out md X H. unfold gf_condition_soft in H.
  apply bind_ok in H. destruct H as (u & _ & H).
  apply bind_ok in H. destruct H as (mu & _ & H).
  apply bind_ok in H. destruct H as (M & _ & H).
  apply bind_ok in H. destruct H as (kk & _ & H).
  destruct out; try discriminate.
  do 3 (apply bind_ok in H; destruct H as (? & _ & H)).
  destruct md; try discriminate. do 2 (apply bind_ok in H; destruct H as (? & _ & H)). discriminate.
Qed.

(** ** The hypotheses are met *)
(** a field of size 2 with mean (1,2) and covariance [[4,2],[2,5]] (Cholesky
    decomposition), conditioned on x_0 = 3; S = [[0,0],[0,4]] *)
Definition ls1 : solver := fun k A b =>
  if Req_EM_T (A O O) 0 then None else Some (fun _ j => b O j / A O O).
Lemma ls1_exact : exact_solver ls1 1.
Proof.
  intros A b. unfold ls1. destruct (Req_EM_T (A O O) 0) as [E|N]; cbn.
  - exists (fun _ => 1). split; [exists O; split; [lia|lra]|]. intros i Hi. assert (i = O) as -> by lia.
    unfold mv. cbn. rewrite E. lra.
  - intros m i j Hi Hj. assert (i = O) as -> by lia. unfold mmul. cbn. field. exact N.
Qed.
Definition lx8 : lapack :=
  {| lx_eigh := fun _ _ _ => (fun i => if (i =? 0)%nat then 0 else 4, mid); lx_chol := lx_chol lx7;
     lx_cholmod := lx_cholmod lx7; lx_ldl := lx_ldl lx7 |}.
Definition ch8 : chol := {| c_n := 2; c_C := C7; c_f := Full L7 |}.
Definition f8 : field := {| g_n := 2; g_mean := mkarr 2 1 (fun i _ => INR (i + 1)); g_canonical := None;
  g_cov := Some (SChol ch8); g_prec := None; g_supp := None |}.
Definition e8 : arr := mkarr 1 1 (fun _ _ => 3).
Definition M8 : arr := mkarr 1 2 (fun i j => mid (nth i [0%nat] 0%nat) j).
Lemma st8 : stands_for lx8 2 (SChol ch8) C7.
Proof.
  destruct C54_definite_case as [D F]. apply (stands_chol lx8 2 C7 false); [reflexivity|exact (F false)|exact D].
Qed.
Lemma D8 : definite 1 (AKAt 2 (a_m M8) C7).
Proof.
  apply (proj1 C56_independent); [exact (proj1 C54_definite_case)|].
  exact (proj2 C56_independent 2%nat [0%nat] M8 ltac:(repeat constructor; intros []) eq_refl).
Qed.
Example C56_covariance_case : exists z X, a_r z = 2%nat /\
  gf_condition lx8 ls1 f8 mzero (Indices [0%nat]) e8 Sample 1 (Some z) Covariance = Ok (CSample X) /\
  a_m X O O = 3.
Proof.
  destruct (C56_covariance lx8 ls1 f8 (SChol ch8) 2 1 C7 mzero (Indices [0%nat]) M8 e8 1
    eq_refl st8 eq_refl eq_refl eq_refl eq_refl eq_refl eq_refl eq_refl eq_refl eq_refl ls1_exact D8)
    as (m & S & HC & (B & _ & HB) & _).
  destruct (HB (mkarr 2 1 (fun i _ => 1)) eq_refl) as (X & E & _ & E2 & _).
  exists (mkarr 2 1 (fun i _ => 1)), X. split; [reflexivity|].
  destruct (gf_condition lx8 ls1 f8 mzero (Indices [0%nat]) e8 Sample 1 (Some (mkarr 2 1 (fun i _ => 1))) Covariance)
    as [[X'|]|] eqn:EX; try discriminate. injection E as ->. split; [reflexivity|].
  exact (proj2 (C56_hard_indices _ _ _ _ _ _ _ _ _ _ EX eq_refl ltac:(discriminate) ls1_exact O O ltac:(cbn; lia) ltac:(rewrite E2; cbn; lia))).
Qed.
Definition S8 : mat := fun i j => if ((i =? 1) && (j =? 1))%nat%bool then 4 else 0.
Definition m8 : nat -> R := fun i => if (i =? 0)%nat then 3 else 3.
Lemma HC8 : conditional 2 1 (a_m M8) (fun i => a_m e8 i O) (mean0 f8) C7 m8 S8.
Proof.
  exists (fun _ _ => / 4). split; [|split].
  - split; intros i j Hi Hj; assert (i = O) as -> by lia; assert (j = O) as -> by lia;
      unfold AKAt, mmul, mtr, M8, mid, C7, two; cbn [a_m nth sum Nat.eqb]; lra.
  - intros i Hi. unfold m8, mean0, mv, mmul, mtr, M8, mid, C7, two, e8, f8.
    destruct i as [|[|i]]; [| |lia]; cbn [a_m nth sum Nat.eqb g_mean INR Nat.add]; lra.
  - intros i j Hi Hj. unfold S8, msub, mmul, mtr, M8, mid, C7, two.
    destruct i as [|[|i]]; [| |lia]; destruct j as [|[|j]]; try lia;
      cbn [a_m nth sum Nat.eqb andb]; lra.
Qed.
Lemma ex8 : forall C, meq 2 2 C S8 -> eigh_ok 2 C None (lx_eigh lx8 2 C None).
Proof.
  intros C HC. cbn [lx8 lx_eigh eigh_ok mass]. split; [|split].
  - intros i j Hij Hj. destruct i as [|[|i]]; [| |lia]; destruct j as [|[|j]]; try lia; cbn [Nat.eqb]; lra.
  - rewrite !mmul_id_l, mmul_id_r. apply mtr_id.
  - rewrite HC, mmul_id_r, !mmul_id_l. intros i j Hi Hj. unfold S8, mdiag.
    destruct i as [|[|i]]; [| |lia]; destruct j as [|[|j]]; try lia; reflexivity.
Qed.
Example C56_field_case : / 10 ^ 4 <= fro 2 S8 /\ exists g,
  gf_condition lx8 ls1 f8 mzero (Indices [0%nat]) e8 Field 1 None Covariance = Ok (CField g) /\ mean0 g O = 3.
Proof.
  assert (F : / 10 ^ 4 <= fro 2 S8).
  { unfold fro, S8. cbn [sum Nat.eqb andb].
    replace (0 + (0 + 0 * 0 + 0 * 0) + (0 + 0 * 0 + 4 * 4)) with (4 * 4) by ring. rewrite sqrt_square by lra.
    assert (/ 10 ^ 4 <= / 1); [|lra]. apply Rinv_le_contravar; [lra|]. apply pow_R1_Rle. lra. }
  split; [exact F|].
  assert (Sd : semidefinite 2 C7).
  { intros x. unfold qf, C7, two. cbn [sum]. pose proof (Rle_0_sqr (2 * x O + x 1%nat)) as Q1.
    pose proof (Rle_0_sqr (x 1%nat)) as Q2. unfold Rsqr in *. nra. }
  destruct (C56_field_partial lx8 ls1 f8 (SChol ch8) 2 1 C7 mzero (Indices [0%nat]) M8 e8 1 None m8 S8
    eq_refl st8 ltac:(reflexivity) ltac:(lia) eq_refl eq_refl eq_refl eq_refl eq_refl eq_refl eq_refl eq_refl eq_refl
    ls1_exact D8 Sd HC8 ex8) as (g & r & V & D & E & _ & _ & _ & Em & _).
  exists g. split; [exact E|]. rewrite Em by lia. reflexivity.
Qed.
Print Assumptions C56_hard.
Print Assumptions C56_hard_indices.
Print Assumptions C56_contradictory.
Print Assumptions C56_covariance.
Print Assumptions C56_precision.
Print Assumptions C56_independent.
Print Assumptions C56_conditional.
Print Assumptions C56_field_mean.
Print Assumptions C56_field_partial.
Print Assumptions C56_support_refuted.
Print Assumptions C56_field_sample_refuted.
Print Assumptions C56_precision_field_refuted.
Print Assumptions C56_soft_refuted.

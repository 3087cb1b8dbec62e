(** * C55: samples of a GaussianField

    [draws n q F m S] (SpecGauss.v): F maps standard normal vectors to x = m + Bz
    with BB' = S.  [stands_for], [invertible]: the matrix of a covariance or
    precision object. *)
From Coq Require Import List Arith Reals Lia Lra Setoid Morphisms.
From Verif Require Import Tree RMat Spd SpecSpd SpdFacts SpdEig SpdKer Prop_Eig Prop_Chol Gauss SpecGauss GaussFacts.
Import ListNotations.
Local Open Scope R_scope.

(** the first column of the mean *)
Definition mean0 (f : field) : nat -> R := fun i => a_m (g_mean f) i O.

Lemma draws_of : forall f md o n S W rnd k, md <> OtherMode -> object f md = Some o -> spd_size o = n ->
  a_r (g_mean f) = n -> a_c (g_mean f) = 1%nat -> square_root n S W -> applies n (noise f md) W ->
  draws n n (fun z => gf_sample f rnd k (Some z) md) (mean0 f) S /\
  gf_sample f rnd k None md = gf_sample f rnd k (Some (mkarr n k rnd)) md.
Proof.
  intros f md o n S W rnd k H1 H2 H3 H4 H5 H6 H7.
  destruct (sample_applies f md o n W rnd k H1 H2 H3 H4 H5 H7) as [A B]. split; [|exact B].
  exists W. split; [exact H6|]. intros z Hz. destruct (A z Hz) as (M & E & HM). eexists. split; [exact E|].
  cbn. split; [reflexivity|]. split; [reflexivity|]. exact HM.
Qed.

(** sample() in mode 'covariance' draws from N(mean, K), K the matrix the
    covariance object stands for; without z from the random numbers. *)
Theorem C55_covariance : forall lx n f o K rnd k,
  g_cov f = Some o -> stands_for lx n o K -> a_r (g_mean f) = n -> a_c (g_mean f) = 1%nat ->
  draws n n (fun z => gf_sample f rnd k (Some z) Covariance) (mean0 f) K /\
  gf_sample f rnd k None Covariance = gf_sample f rnd k (Some (mkarr n k rnd)) Covariance.
Proof.
  intros lx n f o K rnd k Ho H Hr Hc. destruct (noise_cov lx n f o K Ho H) as (W & W1 & W2).
  apply (draws_of f Covariance o n K W); auto; [discriminate|]. apply (stands_spec _ _ _ _ H).
Qed.

(** in mode 'precision' from N(mean, Q^-1), Q the matrix of the precision object *)
Theorem C55_precision : forall lx n f o Q rnd k,
  g_prec f = Some o -> invertible lx n o Q -> a_r (g_mean f) = n -> a_c (g_mean f) = 1%nat ->
  exists S, inverse n Q S /\
  draws n n (fun z => gf_sample f rnd k (Some z) Precision) (mean0 f) S /\
  gf_sample f rnd k None Precision = gf_sample f rnd k (Some (mkarr n k rnd)) Precision.
Proof.
  intros lx n f o Q rnd k Ho H Hr Hc.
  destruct (noise_prec lx n f o Q Precision ltac:(discriminate) Ho H) as (S & W & I1 & I2 & W1 & W2).
  exists S. split; [exact I1|].
  apply (draws_of f Precision o n S W); auto; [discriminate|]. apply (stands_spec _ _ _ _ (invertible_stands _ _ _ _ H)).
Qed.

(** The field made of a covariance array C samples N(mean, C + E); E is positive
    semidefinite, no larger than the eigenvalue bound requires, and 0 if C is above it. *)
Theorem C55_from_covariance : forall lx n mean C rnd k,
  (0 < n)%nat -> a_r mean = n -> a_c mean = 1%nat -> a_r C = n -> a_c C = n ->
  eigh_ok n (a_m C) None (lx_eigh lx n (a_m C) None) ->
  exists f E, gf_init lx n (Some mean) None (Some (Arr C)) None None = Ok f /\
    symmetric n E /\ semidefinite n E /\
    (bounded_below n (a_m C) mid (eig_bound n (a_m C) None) -> meq n n E mzero) /\
    (forall l, l <= eig_bound n (a_m C) None -> bounded_below n (a_m C) mid l ->
       forall x, qf n E x <= (eig_bound n (a_m C) None - l) * nsq n x) /\
    draws n n (fun z => gf_sample f rnd k (Some z) Covariance) (fun i => a_m mean i O) (madd (a_m C) E) /\
    gf_sample f rnd k None Covariance = gf_sample f rnd k (Some (mkarr n k rnd)) Covariance.
Proof.
  intros lx n mean C rnd k Hn Hr Hc Cr Cc K.
  destruct (eig_init_ok lx n (a_m C) None None (default_bound_nonneg n (a_m C))) as [e He].
  destruct (C53_perturbed lx n (a_m C) None e He K) as (E & E1 & E2 & E3 & E4 & E5 & _).
  set (f := {| g_n := n; g_mean := mean; g_canonical := None; g_cov := Some (SEig e); g_prec := None; g_supp := None |}).
  exists f, E. split.
  { unfold gf_init, set_covariance, square. rewrite Hr, Cr, Cc, Nat.eqb_refl.
    destruct (n =? 0)%nat eqn:En; [apply Nat.eqb_eq in En; lia|]. rewrite He. reflexivity. }
  split; [exact E1|]. split; [exact E2|]. split; [|split; [exact E4|]].
  - intros B. destruct (C53_exact lx n (a_m C) None e He K B) as ((X1 & _) & _).
    rewrite X1 in E5. intros i j Hi Hj. specialize (E5 i j Hi Hj). unfold madd in E5. unfold mzero. lra.
  - destruct (C55_covariance lx n f (SEig e) (fst (eig_reconstruct e)) rnd k eq_refl) as [D1 D2]; auto.
    { econstructor; eauto. }
    split; [|exact D2]. destruct D1 as (B & B1 & B2). exists B. split; [rewrite B1; exact E5|exact B2].
Qed.

(** The field made of a positive definite precision array Q samples N(mean, Q^-1). *)
Theorem C55_from_precision : forall lx n mean Q rnd k,
  (0 < n)%nat -> a_r mean = n -> a_c mean = 1%nat -> a_r Q = n -> a_c Q = n ->
  chol_ok n (a_m Q) (lx_chol lx n (a_m Q)) -> definite n (a_m Q) ->
  exists f S, gf_init lx n (Some mean) None None (Some (Arr Q)) None = Ok f /\ inverse n (a_m Q) S /\
    draws n n (fun z => gf_sample f rnd k (Some z) Precision) (fun i => a_m mean i O) S /\
    gf_sample f rnd k None Precision = gf_sample f rnd k (Some (mkarr n k rnd)) Precision.
Proof.
  intros lx n mean Q rnd k Hn Hr Hc Cr Cc K D.
  destruct (C54_definite lx n false (a_m Q) K D) as (c & Ec & _).
  set (f := {| g_n := n; g_mean := mean; g_canonical := None; g_cov := None; g_prec := Some (SChol c); g_supp := None |}).
  destruct (C55_precision lx n f (SChol c) (a_m Q) rnd k eq_refl) as (S & S1 & S2 & S3); auto.
  { econstructor; eauto. }
  exists f, S. split; [|auto].
  unfold gf_init, set_precision, square. rewrite Hr, Cr, Cc, Nat.eqb_refl.
  destruct (n =? 0)%nat eqn:En; [apply Nat.eqb_eq in En; lia|]. rewrite Ec. reflexivity.
Qed.

(** compute_mean() replaces the mean by the solution of Q*mean = b (K b for a
    covariance); then sample(mode='canonical') draws from N(Q^-1 b, Q^-1). *)
Theorem C55_canonical : forall lx n f o Q b rnd k,
  g_prec f = Some o -> invertible lx n o Q ->
  g_canonical f = Some b -> a_r b = n -> a_c b = 1%nat ->
  exists f' S, gf_compute_mean f = Ok f' /\ inverse n Q S /\
    (forall i, (i < n)%nat -> mv n Q (mean0 f') i = a_m b i O) /\
    draws n n (fun z => gf_sample f' rnd k (Some z) Canonical) (mv n S (fun i => a_m b i O)) S.
Proof.
  intros lx n f o Q b rnd k Ho H Hb Br Bc.
  destruct (invertible_spec _ _ _ _ H) as (S & I1 & I2 & Sv & W & W1 & W2).
  destruct (Sv b Br) as (y & Ey & Hy).
  unfold gf_compute_mean. rewrite Hb, Ho, Ey. cbn [bind].
  set (f' := {| g_n := g_n f; g_mean := mkarr n (a_c b) y; g_canonical := Some b; g_cov := g_cov f;
                g_prec := Some o; g_supp := g_supp f |}).
  exists f', S. split; [reflexivity|]. split; [exact I1|].
  assert (M0 : forall i, (i < n)%nat -> mean0 f' i = mv n S (fun i => a_m b i O) i).
  { intros i Hi. unfold mean0. cbn. rewrite (Hy 1%nat i O Hi ltac:(lia)). reflexivity. }
  split.
  - intros i Hi. rewrite (mv_ext n Q (mean0 f') (mv n S (fun i => a_m b i O)) i M0).
    rewrite <- mv_mmul.
    assert (X : mv n (mmul n Q S) (fun i => a_m b i O) i = mv n mid (fun i => a_m b i O) i).
    { unfold mv. apply sum_ext. intros j Hj. rewrite (proj1 I1 i j Hi Hj). reflexivity. }
    rewrite X. exact (mv_id n (fun i => a_m b i O) i Hi).
  - destruct (noise_prec lx n f' o Q Canonical ltac:(discriminate) eq_refl H) as (S' & W' & J1 & J2 & V1 & V2).
    assert (ES : meq n n S' S) by (apply (inverse_unique n Q); auto; apply J1).
    assert (V3 : square_root n S W') by (unfold square_root in *; rewrite V1; exact ES).
    destruct (draws_of f' Canonical o n S W' rnd k ltac:(discriminate) eq_refl) as [(B & B1 & B2) _]; auto.
    { apply (stands_spec _ _ _ _ (invertible_stands _ _ _ _ H)). }
    exists B. split; [exact B1|]. intros z Hz. destruct (B2 z Hz) as (X & X1 & X2 & X3 & X4).
    exists X. split; [exact X1|]. split; [exact X2|]. split; [exact X3|].
    intros i j Hi Hj. rewrite X4 by auto. rewrite M0 by auto. reflexivity.
Qed.

(** compute_canonical_mean() stores b with b = Q*mean, resp. K*b = mean *)
Theorem C55_canonical_mean : forall lx n f o K,
  (0 < a_c (g_mean f))%nat -> a_r (g_mean f) = n -> invertible lx n o K ->
  (g_prec f = Some o ->
     exists f' b, gf_compute_canonical f = Ok f' /\ g_canonical f' = Some b /\ a_r b = n /\
       forall i, (i < n)%nat -> a_m b i O = mv n K (mean0 f) i) /\
  (g_prec f = None -> g_cov f = Some o ->
     exists f' b, gf_compute_canonical f = Ok f' /\ g_canonical f' = Some b /\ a_r b = n /\
       forall i, (i < n)%nat -> mv n K (fun j => a_m b j O) i = mean0 f i).
Proof.
  intros lx n f o K Hc Hr H. unfold gf_compute_canonical, gf_mean, np_col.
  destruct (0 <? a_c (g_mean f))%nat eqn:E0; [|apply Nat.ltb_ge in E0; lia]. cbn [bind].
  set (mu := mkarr (a_r (g_mean f)) 1 (fun i _ => a_m (g_mean f) i O)).
  assert (Hmu : a_r mu = n) by exact Hr.
  split.
  - intros Ho. rewrite Ho.
    destruct (stands_spec _ _ _ _ (invertible_stands _ _ _ _ H)) as (_ & _ & Dt & _).
    destruct (Dt mu Hmu) as (y & Ey & Hy). rewrite Ey. cbn [bind].
    eexists. eexists. split; [reflexivity|]. split; [reflexivity|]. split; [reflexivity|].
    intros i Hi. cbn. rewrite (Hy 1%nat i O Hi ltac:(lia)). reflexivity.
  - intros Hp Ho. rewrite Hp, Ho.
    destruct (invertible_spec _ _ _ _ H) as (S & I1 & I2 & Sv & _).
    destruct (Sv mu Hmu) as (y & Ey & Hy). rewrite Ey. cbn [bind].
    eexists. eexists. split; [reflexivity|]. split; [reflexivity|]. split; [reflexivity|].
    intros i Hi. cbn [a_m].
    assert (Y : forall j, (j < n)%nat -> y j O = mv n S (mean0 f) j).
    { intros j Hj. rewrite (Hy 1%nat j O Hj ltac:(lia)). reflexivity. }
    rewrite (mv_ext n K _ _ i Y). rewrite <- mv_mmul.
    assert (X : mv n (mmul n K S) (mean0 f) i = mv n mid (mean0 f) i).
    { unfold mv. apply sum_ext. intros j Hj. rewrite (proj1 I1 i j Hi Hj). reflexivity. }
    rewrite X. exact (mv_id n (mean0 f) i Hi).
Qed.

(** Matrices that are missing and modes that do not exist are rejected. *)
Theorem C55_rejected : forall f rnd k z,
  (g_cov f = None -> gf_sample f rnd k z Covariance = Err AssertionError) /\
  (g_prec f = None -> gf_sample f rnd k z Precision = Err AssertionError /\
                      gf_sample f rnd k z Canonical = Err AssertionError) /\
  (forall o z', g_cov f = Some o -> z = Some z' -> a_r z' <> spd_size o ->
     gf_sample f rnd k z Covariance = Err AssertionError) /\
  exists x, gf_sample f rnd k z OtherMode = Err x.
Proof.
  intros f rnd k z. unfold gf_sample. split; [|split; [|split]].
  - intros ->. reflexivity.
  - intros ->. split; reflexivity.
  - intros o z' -> -> N. destruct (Nat.eqb_spec (a_r z') (spd_size o)); [contradiction|]. reflexivity.
  - eexists; reflexivity.
Qed.

(** ** What is not true *)

(** The field given by a canonical mean and a precision: sample(mode='canonical')
    ignores the canonical mean (the mean is set to zeros, never None). *)
Definition lx_one : lapack :=
  {| lx_eigh := fun _ _ _ => (fun _ => 1, mid); lx_chol := fun _ _ => Some mid;
     lx_cholmod := fun _ _ => None; lx_ldl := fun _ _ => (mid, mzero, fun i => i) |}.
Lemma one_chol : chol_ok 1 mid (lx_chol lx_one 1 mid).
Proof.
  cbn [lx_one lx_chol chol_ok]. split; [|split].
  - intros i j Hi Hj Hij. lia.
  - intros i Hi. unfold mid. rewrite Nat.eqb_refl. lra.
  - rewrite mmul_id_l. apply mtr_id.
Qed.
Lemma one_definite : forall n, definite n mid.
Proof.
  intros n x (i & Hi & Hx). rewrite qf_id.
  destruct (Rlt_le_dec 0 (nsq n x)) as [L|L]; [exact L|]. exfalso. apply Hx.
  apply (nsq_zero n x); auto. pose proof (nsq_nonneg n x). lra.
Qed.
Theorem C55_canonical_refuted : exists lx n b Q f z X,
  chol_ok n (a_m Q) (lx_chol lx n (a_m Q)) /\ definite n (a_m Q) /\
  gf_init lx n None (Some b) None (Some (Arr Q)) None = Ok f /\
  gf_sample f mzero 1 (Some z) Canonical = Ok X /\
  (forall i j, a_m z i j = 0) /\ ~ meq n 1 (mmul n (a_m Q) (a_m X)) (a_m b).
Proof.
  exists lx_one, 1%nat, (mkarr 1 1 (fun _ _ => 1)), (mkarr 1 1 mid).
  set (c := {| c_n := 1; c_C := mid; c_f := Full mid |}).
  exists {| g_n := 1; g_mean := mkarr 1 1 mzero; g_canonical := Some (mkarr 1 1 (fun _ _ => 1)); g_cov := None;
       g_prec := Some (SChol c); g_supp := None |}, (mkarr 1 1 mzero).
  destruct (invertible_spec lx_one 1 (SChol c) mid) as (S & I1 & _ & _ & W & W1 & W2).
  { apply (inv_chol lx_one 1 mid false c); [reflexivity|exact one_chol|apply one_definite]. }
  destruct (W2 (mkarr 1 1 mzero) eq_refl) as (y & Ey & Hy).
  unfold gf_sample. cbn [g_prec g_mean spd_size c c_n a_r Nat.eqb bind]. fold c. rewrite Ey. cbn [bind].
  eexists. split; [exact one_chol|]. split; [apply one_definite|]. split; [reflexivity|].
  split; [reflexivity|]. split; [reflexivity|].
  intros N. specialize (N O O ltac:(lia) ltac:(lia)). cbn in N.
  rewrite (Hy 1%nat O O ltac:(lia) ltac:(lia)) in N. unfold mmul, mid, mzero in N. cbn in N. lra.
Qed.

(** A mean with several columns: every request for several samples fails, and m_col
    cannot select a column. *)
Theorem C55_columns_refuted : forall lx n f o K rnd k z,
  g_cov f = Some o -> stands_for lx n o K -> a_r (g_mean f) = n -> (1 < a_c (g_mean f))%nat ->
  a_r z = n -> (1 < a_c z)%nat ->
  gf_sample f rnd k (Some z) Covariance = Err ValueError.
Proof.
  intros lx n f o K rnd k z Ho H Hr Hc Hz Hk.
  destruct (stands_spec _ _ _ _ H) as (Sz & _ & _ & W & W1 & W2).
  destruct (W2 z Hz) as (y & Ey & _). unfold gf_sample. rewrite Ho, Hz, Sz, Nat.eqb_refl. cbn [bind].
  rewrite Ey. cbn [bind]. unfold np_add, np_op. cbn [a_r a_c np_tile].
  rewrite Hr, bdim_refl. unfold bdim.
  destruct (Nat.eqb_spec (a_c z) (a_c (g_mean f) * a_c z)) as [E|E]; [nia|].
  destruct (Nat.eqb_spec (a_c z) 1); [lia|].
  destruct (Nat.eqb_spec (a_c (g_mean f) * a_c z) 1); [nia|]. reflexivity.
Qed.

(** ** The hypotheses are met *)
Example C55_covariance_case : exists f,
  gf_init (lx_const r3) 2 (Some (mkarr 2 1 (fun i _ => INR i))) None (Some (Arr (mkarr 2 2 C3))) None None = Ok f /\
  eigh_ok 2 C3 None (lx_eigh (lx_const r3) 2 C3 None) /\ bounded_below 2 C3 mid (eig_bound 2 C3 None) /\
  exists e, g_cov f = Some (SEig e) /\ stands_for (lx_const r3) 2 (SEig e) (fst (eig_reconstruct e)).
Proof.
  destruct (C55_from_covariance (lx_const r3) 2 (mkarr 2 1 (fun i _ => INR i)) (mkarr 2 2 C3) mzero 1)
    as (f & E & Ef & _); try reflexivity; [lia|exact r3_ok|].
  exists f. split; [exact Ef|]. split; [exact r3_ok|]. split; [exact C53_default_case|].
  unfold gf_init, set_covariance in Ef. cbn [a_r a_c square Nat.eqb bind] in Ef.
  destruct (eig_init_ok (lx_const r3) 2 C3 None None (default_bound_nonneg 2 C3)) as [e He].
  cbn [a_m] in Ef. rewrite He in Ef. cbn in Ef. injection Ef as <-. exists e. split; [reflexivity|].
  apply (stands_eig _ _ C3 None None); [exact He|exact r3_ok].
Qed.
Example C55_precision_case : exists c,
  chol_init lx7 2 false C7 = Ok c /\ invertible lx7 2 (SChol c) C7.
Proof.
  eexists. split; [reflexivity|]. destruct C54_definite_case as [D F].
  apply (inv_chol lx7 2 C7 false); [reflexivity|apply (F false)|exact D].
Qed.
Print Assumptions C55_covariance.
Print Assumptions C55_precision.
Print Assumptions C55_from_covariance.
Print Assumptions C55_from_precision.
Print Assumptions C55_canonical.
Print Assumptions C55_canonical_mean.
Print Assumptions C55_rejected.
Print Assumptions C55_canonical_refuted.
Print Assumptions C55_columns_refuted.

(** a covariance argument that has no decomposition: never a field, whatever the other arguments *)
Theorem C55_plain_rejected : forall lx n mean canonical m C prec supp f,
  gf_init lx n mean canonical (Some (Obj (SPlain m C))) prec supp <> Ok f.
Proof.
  intros. unfold gf_init. destruct (n =? 0)%nat; [discriminate|].
  destruct mean as [x|]; cbn [bind set_covariance]; [|discriminate]. destruct (a_r x =? n)%nat; discriminate.
Qed.
Print Assumptions C55_plain_rejected.

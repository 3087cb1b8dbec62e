(** * C57: Karhunen-Loeve samples of a GaussianField

    KL_sample(i_min, i_max) draws from the part of the covariance that belongs to
    the eigenvalues i_min..i_max (numbered from the largest). *)
From Coq Require Import List Arith Reals Lia Lra Setoid Morphisms Bool.
From Verif Require Import Tree RMat Spd SpecSpd SpdFacts SpdEig SpdKer Prop_Eig Prop_Chol Gauss SpecGauss
  GaussFacts GaussCond GaussField Prop_Sample.
Import ListNotations.
Local Open Scope R_scope.

(** the sum of d_l v_l v_l' over lo <= l <= hi *)
Definition part (e : eig) (lo hi : nat) : mat :=
  fun i j => sum (e_n e) (fun l => if ((lo <=? l) && (l <=? hi))%nat%bool then e_V e i l * e_d e l * e_V e j l else 0).

Lemma sum_range : forall n lo k f, (lo + k <= n)%nat ->
  sum n (fun l => if ((lo <=? l) && (l <? lo + k))%nat%bool then f l else 0) = sum k (fun l => f (lo + l)%nat).
Proof.
  induction n as [|n IH]; intros lo k f H.
  - assert (k = 0)%nat as -> by lia. reflexivity.
  - cbn [sum]. destruct (Nat.eq_dec (lo + k) (S n)) as [E|E].
    + destruct k as [|k].
      * rewrite sum_zero; [|intros l Hl; destruct (Nat.leb_spec lo l); [lia|reflexivity]].
        destruct (Nat.leb_spec lo n); [lia|]. cbn. lra.
      * cbn [sum].
        assert (En : n = (lo + k)%nat) by lia. rewrite <- En.
        destruct (Nat.leb_spec lo n); [|lia]. destruct (Nat.ltb_spec n (lo + S k)); [|lia]. cbn [andb].
        f_equal. rewrite <- (IH lo k f ltac:(lia)). apply sum_ext. intros l Hl.
        destruct (Nat.leb_spec lo l); [|reflexivity]. destruct (Nat.ltb_spec l (lo + S k)); destruct (Nat.ltb_spec l (lo + k)); try lia; reflexivity.
    + rewrite (IH lo k f ltac:(lia)). destruct (Nat.ltb_spec n (lo + k)); [lia|]. rewrite andb_false_r. lra.
Qed.

Section KL.
Variables (lx : lapack) (n : nat) (C : mat) (M : option mat) (delta : option R) (e : eig) (f : field).
Hypothesis He : eig_init lx n C M delta = Ok e.
Hypothesis Hk : eigh_ok n C M (lx_eigh lx n C M).
Hypothesis Hf : g_cov f = Some (SEig e).
Hypothesis Hn : g_n f = n.
Hypothesis Hr : a_r (g_mean f) = n.
Hypothesis Hc : (0 < a_c (g_mean f))%nat.

Lemma kl_n : e_n e = n.
Proof. apply (eig_init_wf _ _ _ _ _ _ He Hk). Qed.
Lemma kl_d : forall i, 0 <= e_d e i.
Proof.
  destruct (eig_init_wf _ _ _ _ _ _ He Hk) as (En & EC & EM & Ed & mu & W). intros i.
  rewrite (wf_d e mu W). pose proof (clip_ge (e_delta e) mu i). pose proof (wf_delta e mu W). lra.
Qed.

Lemma kl_value : forall rnd lo hi ns z c, (lo <= hi)%nat -> (hi < n)%nat -> a_c z = c -> (hi + 1 <= a_r z)%nat ->
  (c = ns \/ ns = 1)%nat ->
  (forall i j, (i < hi + 1 - lo)%nat -> (j < c)%nat -> a_m rnd (lo + i)%nat j = a_m z (lo + i)%nat j) ->
  exists X, bind (np_dot (mkarr (Nat.min (hi + 1) (e_n e) - lo) (Nat.min (hi + 1) (e_n e) - lo)
                     (mdiag (fun i => sqrt (e_d e (lo + i)%nat)))) (np_rows z lo (hi + 1))) (fun y =>
      bind (np_dot (np_cols (mkarr (e_n e) (e_n e) (e_V e)) lo (hi + 1)) y) (fun x =>
      np_add x (np_tile (mkarr n 1 (fun i _ => a_m (g_mean f) i O)) ns))) = Ok (mkarr n c X) /\
    forall i j, (i < n)%nat -> (j < c)%nat -> X i j = mean0 f i +
      sum (hi + 1 - lo) (fun l => e_V e i (lo + l)%nat * sqrt (e_d e (lo + l)%nat) * a_m rnd (lo + l)%nat j).
Proof.
  intros rnd lo hi ns z c H1 H2 Hzc Hz Hns Hrnd. pose proof kl_n as En.
  assert (E1 : Nat.min (hi + 1) (e_n e) = (hi + 1)%nat) by lia. rewrite E1.
  assert (E2 : Nat.min (hi + 1) (a_r z) = (hi + 1)%nat) by lia.
  rewrite np_dot_ok by (cbn; rewrite E2; reflexivity). cbn [bind a_r a_c a_m].
  rewrite np_dot_ok by (cbn [np_cols a_r a_c]; rewrite E1; reflexivity). cbn [bind a_r a_c a_m np_cols np_rows].
  rewrite E1, En, Hzc. set (q := (hi + 1 - lo)%nat) in *.
  set (Y := mmul q (fun i j => e_V e i (lo + j)%nat)
       (mmul q (mdiag (fun i => sqrt (e_d e (lo + i)%nat))) (fun i j => a_m z (lo + i)%nat j))).
  assert (HY : forall i j, (i < n)%nat -> (j < c)%nat -> Y i j =
     sum q (fun l => e_V e i (lo + l)%nat * sqrt (e_d e (lo + l)%nat) * a_m rnd (lo + l)%nat j)).
  { intros i j Hi Hj. unfold Y. unfold mmul at 1. apply sum_ext. intros l Hl.
    rewrite (mmul_diag_l q c (fun i => sqrt (e_d e (lo + i)%nat)) (fun i j => a_m z (lo + i)%nat j) l j Hl Hj).
    rewrite (Hrnd l j Hl Hj). ring. }
  clearbody Y. unfold np_add.
  destruct Hns as [Hns|Hns].
  - destruct (np_op_same Rplus (mkarr n c Y) (np_tile (mkarr n 1 (fun i _ => a_m (g_mean f) i O)) ns)) as (X & EX & HX);
      [reflexivity|cbn; lia|]. exists X. split; [exact EX|]. intros i j Hi Hj. rewrite HX. cbn [a_m np_tile].
    rewrite (HY i j Hi Hj). unfold mean0. ring.
  - destruct (np_op_col Rplus (mkarr n c Y) (np_tile (mkarr n 1 (fun i _ => a_m (g_mean f) i O)) ns)) as (X & EX & HX);
      [reflexivity|cbn; lia|]. exists X. split; [exact EX|]. intros i j Hi Hj. rewrite HX by auto. cbn [a_m np_tile].
    rewrite (HY i j Hi Hj). unfold mean0. ring.
Qed.

Lemma kl_root : forall lo hi, (lo <= hi)%nat -> (hi < n)%nat ->
  meq n n (mmul n (fun i l => if ((lo <=? l) && (l <=? hi))%nat%bool then e_V e i l * sqrt (e_d e l) else 0)
       (mtr (fun i l => if ((lo <=? l) && (l <=? hi))%nat%bool then e_V e i l * sqrt (e_d e l) else 0)))
    (part e lo hi).
Proof.
  intros lo hi H1 H2 i j Hi Hj. unfold part, mmul, mtr. rewrite kl_n. apply sum_ext. intros l Hl.
  destruct ((lo <=? l) && (l <=? hi))%nat%bool; [|ring].
  replace (e_V e i l * e_d e l * e_V e j l) with (e_V e i l * (sqrt (e_d e l) * sqrt (e_d e l)) * e_V e j l); [ring|].
  rewrite sqrt_sqrt by apply kl_d. reflexivity.
Qed.

Lemma kl_sum : forall lo hi (g : nat -> R) (w : nat -> R), (lo <= hi)%nat -> (hi < n)%nat ->
  sum (hi + 1 - lo) (fun l => g (lo + l)%nat * w (lo + l)%nat) =
  sum n (fun l => (if ((lo <=? l) && (l <=? hi))%nat%bool then g l else 0) * w l).
Proof.
  intros lo hi g w H1 H2.
  rewrite <- (sum_range n lo (hi + 1 - lo) (fun l => g l * w l)) by lia. apply sum_ext. intros l Hl.
  destruct (Nat.leb_spec lo l); cbn [andb]; [|ring].
  destruct (Nat.ltb_spec l (lo + (hi + 1 - lo))); destruct (Nat.leb_spec l hi); try lia; ring.
Qed.

(** with random numbers of its own: any range *)
Lemma kl_random : forall lo hi, (lo <= hi)%nat -> (hi < n)%nat ->
  draws n n (fun z => gf_KL f (a_m z) lo (Some hi) (a_c z) None) (mean0 f) (part e lo hi).
Proof.
  intros lo hi H1 H2. eexists. split; [exact (kl_root lo hi H1 H2)|].
  intros z Hz. unfold gf_KL, gf_mean, np_col. destruct (0 <? a_c (g_mean f))%nat eqn:E0; [|apply Nat.ltb_ge in E0; lia].
  cbn [bind]. rewrite Hf, Hn. destruct (Nat.ltb_spec hi lo); [lia|]. destruct (Nat.leb_spec n hi); [lia|]. cbn [bind].
  rewrite Hr.
  destruct (kl_value z lo hi (a_c z) (mkarr n (a_c z) (a_m z)) (a_c z) H1 H2 eq_refl ltac:(cbn; lia) ltac:(auto)
     ltac:(reflexivity)) as (X & EX & HX).
  rewrite EX. eexists. split; [reflexivity|]. split; [reflexivity|]. split; [reflexivity|]. cbn [a_m].
  intros i j Hi Hj. rewrite (HX i j Hi Hj). f_equal.
  exact (kl_sum lo hi (fun l => e_V e i l * sqrt (e_d e l)) (fun l => a_m z l j) H1 H2).
Qed.
(** with given z: the first hi+1 eigenvalues *)
Lemma kl_given : forall rnd hi ns z, (hi < n)%nat -> a_r z = (hi + 1)%nat -> (a_c z = ns \/ ns = 1)%nat ->
  exists X, gf_KL f rnd 0 (Some hi) ns (Some z) = Ok (mkarr n (a_c z) X) /\
    forall i j, (i < n)%nat -> (j < a_c z)%nat ->
      X i j = mean0 f i + sum (hi + 1) (fun l => e_V e i l * sqrt (e_d e l) * a_m z l j).
Proof.
  intros rnd hi ns z H2 Hz Hns. unfold gf_KL, gf_mean, np_col.
  destruct (0 <? a_c (g_mean f))%nat eqn:E0; [|apply Nat.ltb_ge in E0; lia].
  cbn [bind]. rewrite Hf, Hn. destruct (Nat.ltb_spec hi 0); [lia|]. destruct (Nat.leb_spec n hi); [lia|]. cbn [bind].
  rewrite Nat.sub_0_r, Hz, Nat.eqb_refl. cbn [bind]. rewrite Hr.
  destruct (kl_value z 0 hi ns z (a_c z) ltac:(lia) H2 eq_refl ltac:(lia) Hns ltac:(reflexivity)) as (X & EX & HX).
  rewrite Nat.sub_0_r in EX. rewrite Nat.sub_0_r. rewrite EX. exists X. split; [reflexivity|].
  intros i j Hi Hj. rewrite (HX i j Hi Hj). rewrite Nat.sub_0_r. reflexivity.
Qed.
End KL.

(** Without z: draws from N(mean, sum of d_l v_l v_l' over i_min <= l <= i_max). *)
Theorem C57_random : forall lx n C M delta e f lo hi,
  eig_init lx n C M delta = Ok e -> eigh_ok n C M (lx_eigh lx n C M) -> g_cov f = Some (SEig e) ->
  g_n f = n -> a_r (g_mean f) = n -> (0 < a_c (g_mean f))%nat -> (lo <= hi)%nat -> (hi < n)%nat ->
  draws n n (fun z => gf_KL f (a_m z) lo (Some hi) (a_c z) None) (mean0 f) (part e lo hi).
Proof. intros lx n C M delta e f lo hi H1 H2 H3 H4 H5 H6. exact (kl_random lx n C M delta e f H1 H2 H3 H4 H5 H6 lo hi). Qed.

(** With z of i_max+1 rows, starting from the first eigenvalue. *)
Theorem C57_given : forall lx n C M delta e f rnd hi,
  eig_init lx n C M delta = Ok e -> eigh_ok n C M (lx_eigh lx n C M) -> g_cov f = Some (SEig e) ->
  g_n f = n -> a_r (g_mean f) = n -> (0 < a_c (g_mean f))%nat -> (hi < n)%nat ->
  draws n (hi + 1) (fun z => gf_KL f rnd 0 (Some hi) (a_c z) (Some z)) (mean0 f) (part e 0 hi).
Proof.
  intros lx n C M delta e f rnd hi H1 H2 H3 H4 H5 H6 H7. pose proof (kl_n lx n C M delta e H1 H2) as En.
  exists (fun i l => e_V e i l * sqrt (e_d e l)). split.
  - intros i j Hi Hj. unfold part. rewrite En.
    rewrite (sum_ext n _ (fun l => if ((0 <=? l) && (l <? 0 + (hi + 1)))%nat%bool then e_V e i l * e_d e l * e_V e j l else 0)).
    + rewrite sum_range by lia. unfold mmul, mtr. apply sum_ext. intros l Hl. cbn [Nat.add].
      replace (e_V e i l * e_d e l * e_V e j l) with (e_V e i l * (sqrt (e_d e l) * sqrt (e_d e l)) * e_V e j l); [ring|].
      rewrite sqrt_sqrt by apply (kl_d lx n C M delta e H1 H2). reflexivity.
    + intros l Hl. cbn [Nat.leb andb Nat.add].
      destruct (Nat.leb_spec l hi); destruct (Nat.ltb_spec l (hi + 1)); try lia; reflexivity.
  - intros z Hz. destruct (kl_given lx n C M delta e f H1 H2 H3 H4 H5 H6 rnd hi (a_c z) z H7 Hz ltac:(auto)) as (X & EX & HX).
    eexists. split; [exact EX|]. split; [reflexivity|]. split; [reflexivity|]. exact HX.
Qed.

(** The whole range is the covariance; adjacent ranges add up; parts are positive
    semidefinite and symmetric. *)
Theorem C57_parts : forall lx n C M delta e,
  eig_init lx n C M delta = Ok e -> eigh_ok n C M (lx_eigh lx n C M) -> (0 < n)%nat ->
  meq n n (part e 0 (n - 1)) (fst (eig_reconstruct e)) /\
  (forall lo mid hi, (lo <= mid)%nat -> (mid < hi)%nat ->
     meq n n (madd (part e lo mid) (part e (mid + 1) hi)) (part e lo hi)) /\
  (forall lo hi, symmetric n (part e lo hi) /\ semidefinite n (part e lo hi)).
Proof.
  intros lx n C M delta e H1 H2 Hn. pose proof (kl_n lx n C M delta e H1 H2) as En.
  pose proof (kl_d lx n C M delta e H1 H2) as Hd. split; [|split].
  - intros i j Hi Hj. rewrite <- En in *. rewrite reconstruct_sum by auto. unfold part. apply sum_ext. intros l Hl.
    destruct (Nat.leb_spec l (e_n e - 1)); [reflexivity|lia].
  - intros lo md hi L1 L2 i j Hi Hj. unfold madd, part. rewrite <- sum_add. apply sum_ext. intros l Hl.
    destruct (Nat.leb_spec lo l); destruct (Nat.leb_spec l md); destruct (Nat.leb_spec (md + 1) l);
      destruct (Nat.leb_spec l hi); try lia; cbn [andb]; lra.
  - intros lo hi. split.
    + intros i j Hi Hj. unfold mtr, part. apply sum_ext. intros l Hl.
      destruct ((lo <=? l) && (l <=? hi))%nat%bool; ring.
    + intros x. unfold part. rewrite En.
      rewrite (qf_ext n _ (fun i j => sum n (fun l => e_V e i l * (if ((lo <=? l) && (l <=? hi))%nat%bool then e_d e l else 0) * e_V e j l)) x).
      * rewrite qf_dyads. apply sum_nonneg. intros l Hl. specialize (Hd l).
        pose proof (Rle_0_sqr (mv n (mtr (e_V e)) x l)) as Q. unfold Rsqr in Q.
        destruct ((lo <=? l) && (l <=? hi))%nat%bool; nra.
      * intros i j Hi Hj. apply sum_ext. intros l Hl. destruct ((lo <=? l) && (l <=? hi))%nat%bool; ring.
Qed.

(** Without a range: draws from N(mean, K), K the matrix the decomposition stands for. *)
Theorem C57_all : forall lx n C M delta e f,
  eig_init lx n C M delta = Ok e -> eigh_ok n C M (lx_eigh lx n C M) -> g_cov f = Some (SEig e) ->
  g_n f = n -> a_r (g_mean f) = n -> (0 < a_c (g_mean f))%nat -> (0 < n)%nat ->
  draws n n (fun z => gf_KL f (a_m z) 0 None (a_c z) None) (mean0 f) (fst (eig_reconstruct e)).
Proof.
  intros lx n C M delta e f H1 H2 H3 H4 H5 H6 H7.
  destruct (C57_random lx n C M delta e f 0 (n - 1) H1 H2 H3 H4 H5 H6 ltac:(lia) ltac:(lia)) as (B & B1 & B2).
  destruct (C57_parts lx n C M delta e H1 H2 H7) as (P & _).
  exists B. split; [rewrite B1; exact P|]. intros z Hz. destruct (B2 z Hz) as (X & EX & R). exists X.
  split; [|exact R]. unfold gf_KL in *. rewrite H4 in *. exact EX.
Qed.

(** Truncation after i_max (no mass matrix): the variance lost in any direction is
    at most the next eigenvalue. *)
Theorem C57_truncation : forall lx n C delta e hi x,
  eig_init lx n C None delta = Ok e -> eigh_ok n C None (lx_eigh lx n C None) -> (hi + 1 < n)%nat ->
  qf n (part e 0 hi) x <= qf n (fst (eig_reconstruct e)) x /\
  qf n (fst (eig_reconstruct e)) x <= qf n (part e 0 hi) x + e_d e (hi + 1)%nat * nsq n x.
Proof.
  intros lx n C delta e hi x H1 H2 Hh. pose proof (kl_n lx n C None delta e H1 H2) as En.
  destruct (C57_parts lx n C None delta e H1 H2 ltac:(lia)) as (P1 & P2 & P3).
  pose proof (P2 0%nat hi (n - 1)%nat ltac:(lia) ltac:(lia)) as E. rewrite P1 in E.
  rewrite <- (qf_ext n _ _ x E), qf_add. destruct (P3 (hi + 1)%nat (n - 1)%nat) as [_ Sd]. specialize (Sd x).
  split; [lra|]. apply Rplus_le_compat_l.
  destruct (eig_init_wf _ _ _ _ _ _ H1 H2) as (_ & EC & EM & Ed & mu & W).
  destruct (C53_eigenpairs lx n C None delta e H1 H2) as (Dc & _ & _ & _).
  pose proof (kl_d lx n C None delta e H1 H2) as Hd.
  assert (E3 : nsq n x = sum n (fun l => mv n (mtr (e_V e)) x l * mv n (mtr (e_V e)) x l)).
  { rewrite <- qf_id. pose proof (VVt e mu W EM) as Ho. rewrite En in Ho.
    rewrite (qf_ext n mid (mmul n (e_V e) (mmul n mid (mtr (e_V e)))) x).
    - rewrite qf_conj, qf_id. reflexivity.
    - rewrite mmul_id_l, Ho. reflexivity. }
  rewrite E3. unfold part. rewrite En.
  rewrite (qf_ext n _ (fun i j => sum n (fun l => e_V e i l * (if ((hi + 1 <=? l) && (l <=? n - 1))%nat%bool then e_d e l else 0) * e_V e j l)) x).
  2:{ intros i j Hi Hj. apply sum_ext. intros l Hl. destruct ((hi + 1 <=? l) && (l <=? n - 1))%nat%bool; ring. }
  rewrite qf_dyads, <- sum_scal. apply sum_le. intros l Hl.
  pose proof (Rle_0_sqr (mv n (mtr (e_V e)) x l)) as Q. unfold Rsqr in Q.
  destruct (Nat.leb_spec (hi + 1) l) as [L|L]; cbn [andb].
  - specialize (Dc (hi + 1)%nat l L Hl). destruct (l <=? n - 1)%nat; specialize (Hd l); specialize (Hd); nra.
  - specialize (Hd (hi + 1)%nat). nra.
Qed.

(** Missing or other covariances and bad ranges are rejected. *)
Theorem C57_rejected : forall f rnd lo hi ns z, (0 < a_c (g_mean f))%nat ->
  (forall e, g_cov f <> Some (SEig e)) \/ (hi < lo)%nat \/ (g_n f <= hi)%nat ->
  gf_KL f rnd lo (Some hi) ns z = Err AssertionError.
Proof.
  intros f rnd lo hi ns z Hc H. unfold gf_KL, gf_mean, np_col.
  destruct (0 <? a_c (g_mean f))%nat eqn:E0; [|apply Nat.ltb_ge in E0; lia]. cbn [bind].
  destruct (g_cov f) as [[e| |]|]; try reflexivity. destruct (Nat.ltb_spec hi lo); [reflexivity|].
  destruct (Nat.leb_spec (g_n f) hi); [reflexivity|]. destruct H as [H|[H|H]]; [|lia|lia].
  exfalso. apply (H e). reflexivity.
Qed.

(** ** What is not true *)

(** Given z and i_min > 0, every call fails: z must have i_max-i_min+1 rows and is
    then indexed from i_min to i_max. *)
Theorem C57_given_refuted : forall f rnd lo hi ns z X,
  (0 < lo)%nat -> (forall e, g_cov f = Some (SEig e) -> e_n e = g_n f) ->
  gf_KL f rnd lo hi ns (Some z) <> Ok X.
Proof.
  intros f rnd lo hi ns z X Hlo Hsz H. unfold gf_KL in H.
  apply bind_ok in H. destruct H as (mu & _ & H). destruct (g_cov f) as [[e| |]|]; try discriminate.
  specialize (Hsz e eq_refl).
  set (im := match hi with Some i => i | None => (g_n f - 1)%nat end) in *. clearbody im.
  destruct (Nat.ltb_spec im lo) as [|L1]; [discriminate|]. destruct (Nat.leb_spec (g_n f) im) as [|L2]; [discriminate|].
  destruct (Nat.eqb_spec (a_r z) (im - lo + 1)) as [Ez|]; [|discriminate]. cbn [bind] in H.
  apply bind_ok in H. destruct H as (y & Ey & H).
  destruct (np_dot_inv _ _ _ Ey) as [D1 _]. cbn [a_r a_c np_rows] in D1. rewrite Hsz, Ez in D1. lia.
Qed.

(** ** The hypotheses are met *)
Example C57_case : exists e f, eig_init (lx_const r3) 2 C3 None (Some (/ 2)) = Ok e /\
  eigh_ok 2 C3 None (lx_eigh (lx_const r3) 2 C3 None) /\ g_cov f = Some (SEig e) /\ g_n f = 2%nat /\
  (exists X, gf_KL f mzero 1 (Some 1%nat) 3 None = Ok X) /\ 0 < e_d e 1%nat /\ e_d e 1%nat <= e_d e 0%nat.
Proof.
  assert (Q : exists e, eig_init (lx_const r3) 2 C3 None (Some (/ 2)) = Ok e) by (apply eig_init_ok; cbn; lra).
  destruct Q as [e0 He]. pose proof r3_ok as Hk.
  set (f := {| g_n := 2; g_mean := mkarr 2 1 mzero; g_canonical := None; g_cov := Some (SEig e0); g_prec := None; g_supp := None |}).
  exists e0, f. split; [exact He|]. split; [exact Hk|]. split; [reflexivity|]. split; [reflexivity|]. split.
  - destruct (C57_random _ _ _ _ _ _ f 1 1 He Hk eq_refl eq_refl eq_refl ltac:(cbn; lia) ltac:(lia) ltac:(lia)) as (B & _ & HB).
    destruct (HB (mkarr 2 3 mzero) eq_refl) as (X & EX & _). exists X. exact EX.
  - destruct (C53_eigenpairs _ _ _ _ _ _ He Hk) as (Dc & D2' & _). split; [|apply Dc; lia].
    specialize (D2' 1%nat ltac:(lia)). cbn [eig_bound] in D2'. lra.
Qed.
Print Assumptions C57_random.
Print Assumptions C57_given.
Print Assumptions C57_all.
Print Assumptions C57_parts.
Print Assumptions C57_truncation.
Print Assumptions C57_rejected.
Print Assumptions C57_given_refuted.

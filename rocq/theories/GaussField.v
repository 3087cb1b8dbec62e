(** * GaussianField.condition with output='field'; update_support *)
From Coq Require Import List Arith Reals Lia Lra Setoid Morphisms Bool.
From Verif Require Import Tree RMat Spd SpecSpd SpdFacts SpdEig SpdKer Prop_Eig Prop_Chol Gauss SpecGauss GaussFacts GaussCond GaussKrig.
Import ListNotations.
Local Open Scope R_scope.

Lemma near_refl : forall a, near a a = true.
Proof.
  intros a. unfold near. destruct (Rle_dec _ _) as [|N]; [reflexivity|]. exfalso. apply N.
  rewrite Rminus_diag_eq, Rabs_R0 by reflexivity.
  assert (0 < / 10 ^ 8) by (apply Rinv_0_lt_compat, pow_lt; lra).
  assert (0 < / 10 ^ 5) by (apply Rinv_0_lt_compat, pow_lt; lra).
  pose proof (Rabs_pos a). nra.
Qed.
Lemma near_id_ok : forall k X, meq k k X mid -> near_id k X = true.
Proof.
  intros k X H. unfold near_id. apply forallb_forall. intros i Hi. apply in_seq in Hi.
  apply forallb_forall. intros j Hj. apply in_seq in Hj. rewrite (H i j) by lia. apply near_refl.
Qed.
Lemma filter_le : forall (p : nat -> bool) l, (length (filter p l) <= length l)%nat.
Proof. intros p. induction l as [|a l IH]; cbn; [lia|]. destruct (p a); cbn; lia. Qed.

(** the mask of update_support *)
Definition in_support (e : eig) (i : nat) : bool := if Rlt_dec (/ 10 ^ 12) (Rabs (e_d e i)) then true else false.

Lemma update_support_ok : forall f e mu n, g_cov f = Some (SEig e) -> g_supp f = None -> g_n f = n -> e_n e = n ->
  e_M e = None -> eig_wf e mu ->
  exists r V D, gf_update_support f = Ok {| g_n := g_n f; g_mean := g_mean f; g_canonical := g_canonical f;
      g_cov := Some (SPlain r D); g_prec := g_prec f; g_supp := Some (mkarr n r V) |} /\
    r = length (filter (in_support e) (seq 0 n)) /\ (r <= n)%nat /\
    meq r r (mmul n (mtr V) V) mid /\
    (forall i j, (i < n)%nat -> (j < n)%nat -> mmul r V (mmul r D (mtr V)) i j =
       sum n (fun l => if in_support e l then e_V e i l * e_d e l * e_V e j l else 0)).
Proof.
  intros f e mu n Hc Hs Hn En EM W. unfold gf_update_support. rewrite Hc, Hs. cbn [bind].
  change (masked e) with (filter (in_support e) (seq 0 (e_n e))). rewrite En.
  set (idx := filter (in_support e) (seq 0 n)). set (r := length idx).
  set (V := fun i j => e_V e i (nth j idx O)). set (D := mdiag (fun i => e_d e (nth i idx O))).
  assert (Hr : (r <= n)%nat).
  { unfold r, idx. rewrite <- (seq_length n 0) at 2. apply filter_le. }
  pose proof (VtV e mu W EM) as Ho. rewrite En in Ho.
  assert (O1 : meq r r (mmul n (mtr V) V) mid).
  { intros i j Hi Hj. destruct (nth_filter n (in_support e) i Hi) as [B1 _].
    destruct (nth_filter n (in_support e) j Hj) as [B2 _]. fold idx in B1, B2.
    pose proof (Ho _ _ B1 B2) as E. unfold mmul, mtr in *. unfold V. rewrite E. unfold mid.
    destruct (Nat.eqb_spec i j) as [->|N]; [rewrite Nat.eqb_refl; reflexivity|].
    destruct (Nat.eqb_spec (nth i idx O) (nth j idx O)) as [E2|]; [|reflexivity].
    exfalso. apply N. apply (nodup_filter_nth n (in_support e)); auto. }
  exists r, V, D. split.
  { unfold set_support. cbn [a_r a_c a_m]. rewrite Hn, Nat.eqb_refl. cbn [negb orb].
    assert (Lr : (r <=? n)%nat = true) by (apply Nat.leb_le; exact Hr). rewrite Lr. cbn [negb orb].
    rewrite near_id_ok by exact O1. cbn [bind]. reflexivity. }
  split; [reflexivity|]. split; [exact Hr|]. split; [exact O1|].
  intros i j Hi Hj. unfold mmul at 1.
  transitivity (sum r (fun k => (fun l => e_V e i l * e_d e l * e_V e j l) (nth k idx O))).
  - apply sum_ext. intros k Hk. unfold D.
    pose proof (mmul_diag_l r n (fun i => e_d e (nth i idx O)) (mtr V) k j Hk Hj) as E. rewrite E.
    unfold V, mtr. ring.
  - exact (sum_filter n (in_support e) (fun l => e_V e i l * e_d e l * e_V e j l)).
Qed.

Lemma reconstruct_sum : forall e i j, (i < e_n e)%nat -> (j < e_n e)%nat ->
  fst (eig_reconstruct e) i j = sum (e_n e) (fun l => e_V e i l * e_d e l * e_V e j l).
Proof.
  intros e i j Hi Hj. cbn. unfold mmul at 1. apply sum_ext. intros l Hl.
  rewrite (mmul_diag_l (e_n e) (e_n e) (e_d e) (mtr (e_V e)) l j Hl Hj). unfold mtr. ring.
Qed.
(** the quadratic form of a sum of dyads *)
Lemma qf_dyads : forall n (V : mat) (c : nat -> R) x,
  qf n (fun i j => sum n (fun l => V i l * c l * V j l)) x = sum n (fun l => c l * (mv n (mtr V) x l * mv n (mtr V) x l)).
Proof.
  intros n V c x.
  rewrite <- (qf_diag n c (mv n (mtr V) x)), <- qf_conj. apply qf_ext. intros i j Hi Hj.
  unfold mmul at 1. apply sum_ext. intros l Hl. rewrite (mmul_diag_l n n c (mtr V) l j Hl Hj). unfold mtr. ring.
Qed.

(** what update_support removes *)
Lemma update_support_rest : forall e mu n, e_n e = n -> e_M e = None -> eig_wf e mu ->
  let T := fun i j => sum n (fun l => if in_support e l then e_V e i l * e_d e l * e_V e j l else 0) in
  forall x, qf n T x <= qf n (fst (eig_reconstruct e)) x /\
            qf n (fst (eig_reconstruct e)) x <= qf n T x + / 10 ^ 12 * nsq n x.
Proof.
  intros e mu n En EM W T x.
  assert (Hd : forall i, (i < n)%nat -> 0 <= e_d e i).
  { intros i Hi. rewrite (wf_d e mu W). pose proof (clip_ge (e_delta e) mu i). pose proof (wf_delta e mu W). lra. }
  assert (E1 : qf n T x = sum n (fun l => (if in_support e l then e_d e l else 0) * (mv n (mtr (e_V e)) x l * mv n (mtr (e_V e)) x l))).
  { rewrite <- qf_dyads. apply qf_ext. intros i j Hi Hj. unfold T. apply sum_ext. intros l Hl.
    destruct (in_support e l); ring. }
  assert (E2 : qf n (fst (eig_reconstruct e)) x = sum n (fun l => e_d e l * (mv n (mtr (e_V e)) x l * mv n (mtr (e_V e)) x l))).
  { rewrite <- qf_dyads. apply qf_ext. intros i j Hi Hj. rewrite <- En in *. apply reconstruct_sum; auto. }
  rewrite E1, E2.
  assert (E3 : nsq n x = sum n (fun l => mv n (mtr (e_V e)) x l * mv n (mtr (e_V e)) x l)).
  { rewrite <- qf_id. pose proof (VVt e mu W EM) as Ho. rewrite En in Ho.
    rewrite (qf_ext n mid (mmul n (e_V e) (mmul n mid (mtr (e_V e)))) x).
    - rewrite qf_conj, qf_id. reflexivity.
    - rewrite mmul_id_l, Ho. reflexivity. }
  rewrite E3. set (w := mv n (mtr (e_V e)) x). clearbody w.
  assert (P12 : 0 < / 10 ^ 12) by (apply Rinv_0_lt_compat, pow_lt; lra).
  split.
  - apply sum_le. intros l Hl. specialize (Hd l Hl). pose proof (Rle_0_sqr (w l)) as Q. unfold Rsqr in Q.
    destruct (in_support e l); nra.
  - rewrite <- sum_scal, <- sum_add. apply sum_le. intros l Hl. specialize (Hd l Hl).
    pose proof (Rle_0_sqr (w l)) as Q. unfold Rsqr in Q. unfold in_support.
    destruct (Rlt_dec _ _) as [|N]; [nra|]. rewrite Rabs_pos_eq in N by auto. nra.
Qed.

(** every eigenvalue above the cut-off stays *)
Lemma update_support_full : forall e n, (forall i, (i < n)%nat -> / 10 ^ 12 < e_d e i) ->
  length (filter (in_support e) (seq 0 n)) = n.
Proof.
  intros e n H.
  assert (G : filter (in_support e) (seq 0 n) = seq 0 n).
  { assert (P12 : 0 < / 10 ^ 12) by (apply Rinv_0_lt_compat, pow_lt; lra).
    rewrite (filter_ext_in _ (fun _ => true)).
    - induction (seq 0 n) as [|a l IH]; [reflexivity|]. cbn. rewrite IH. reflexivity.
    - intros i Hi. apply in_seq in Hi. unfold in_support. specialize (H i ltac:(lia)).
      rewrite Rabs_pos_eq by lra. destruct (Rlt_dec _ _); [reflexivity|contradiction]. }
  rewrite G. apply seq_length.
Qed.
Lemma fro_ext : forall n A B, meq n n A B -> fro n A = fro n B.
Proof.
  intros n A B H. unfold fro. f_equal. apply sum_ext. intros i Hi. apply sum_ext. intros j Hj. rewrite (H i j Hi Hj). reflexivity.
Qed.

(** ** condition(output='field') in mode 'covariance' without support *)
Lemma cond_field_ok : forall lx ls f o n k K rnd A M e ns z m S,
  g_cov f = Some o -> spd_size o = n -> (0 < n)%nat ->
  g_n f = n -> a_r (g_mean f) = n -> a_c (g_mean f) = 1%nat -> g_supp f = None ->
  obs_matrix n A = Ok M -> a_r M = k -> a_c M = n -> a_r e = k -> a_c e = 1%nat ->
  symmetric n K -> applies n (times_K f Covariance) K -> meq n n (a_m (spd_matrix o)) K ->
  exact_solver ls k -> definite k (AKAt n (a_m M) K) ->
  conditional n k (a_m M) (fun i => a_m e i O) (fun i => a_m (g_mean f) i O) K m S ->
  (forall C, meq n n C S -> eigh_ok n C None (lx_eigh lx n C None)) ->
  exists C e' g,
    gf_condition lx ls f rnd A e Field ns z Covariance = Ok (CField g) /\
    meq n n C S /\ eig_init lx n C None None = Ok e' /\
    a_r (g_mean g) = n /\ a_c (g_mean g) = 1%nat /\
    (forall i, (i < n)%nat -> a_m (g_mean g) i O = m i) /\
    g_prec g = None /\ g_n g = n /\
    exists r V D, g_cov g = Some (SPlain r D) /\ g_supp g = Some (mkarr n r V) /\
      r = length (filter (in_support e') (seq 0 n)) /\ (r <= n)%nat /\
      meq r r (mmul n (mtr V) V) mid /\
      (forall i j, (i < n)%nat -> (j < n)%nat -> mmul r V (mmul r D (mtr V)) i j =
       sum n (fun l => if in_support e' l then e_V e' i l * e_d e' l * e_V e' j l else 0)).
Proof.
  intros lx ls f o n k K rnd A M e ns z m S Ho Hs Hn0 Hn Hr Hc Hsup HM Mr Mc Er Ec Sy Kx HG Hx D HC Hex.
  destruct HC as (G & I1 & HCm & HCS0).
  set (KA := mmul n K (mtr (a_m M))).
  set (mu := fun i => a_m (g_mean f) i O). set (e0 := fun i => a_m e i O).
  unfold gf_condition. unfold cond_assert. rewrite Ho. cbn [bind]. unfold gf_mean, np_col. rewrite Hc.
  cbn [Nat.ltb Nat.leb bind]. rewrite Hn, HM. cbn [bind]. unfold cond_reduce. rewrite Hsup, Hn. cbn [bind].
  set (mua := mkarr (a_r (g_mean f)) 1 (fun i _ => a_m (g_mean f) i O)).
  assert (KK : exists y, cond_KAT f M Covariance = Ok (Some (mkarr n k y, mkarr k k (mmul n (a_m M) y))) /\
     meq n k y KA).
  { destruct (Kx (np_T M)) as (y & Ey & Hy); [exact Mc|]. exists y. cbn [np_T a_c a_m] in Ey, Hy. rewrite Mr in Ey.
    split; [|apply Hy]. unfold cond_KAT, times_K in *. rewrite Ho in *. rewrite Ey. cbn [bind].
    unfold np_dot. cbn [a_r a_c a_m]. rewrite Mc, Nat.eqb_refl, Mr. reflexivity. }
  destruct KK as (y & EK & Hy). rewrite EK. cbn [bind]. unfold cond_field.
  rewrite np_dot_ok by (cbn; congruence). cbn [bind]. cbn [mua a_r a_c a_m].
  destruct (np_op_same Rminus (mkarr (a_r M) 1 (mmul (a_c M) (a_m M) (fun i _ => a_m (g_mean f) i O))) e) as (r & Err & Hrr);
    [cbn; congruence|cbn; congruence|]. unfold np_sub at 1. rewrite Err. cbn [bind a_r a_c a_m] in *.
  assert (TK : meq k k (mmul n (a_m M) y) (AKAt n (a_m M) K)) by (unfold AKAt; rewrite Hy; reflexivity).
  unfold np_solve at 1. cbn [a_r a_c a_m]. rewrite Mr, Nat.eqb_refl. cbn [andb].
  destruct (solve_definite ls k (AKAt n (a_m M) K) (mmul n (a_m M) y) G r Hx D TK I1) as (s & Es & Hs').
  rewrite Es. cbn [bind].
  rewrite np_dot_ok by reflexivity. cbn [bind a_r a_c a_m].
  rewrite np_dot_ok by reflexivity. cbn [bind a_r a_c a_m].
  destruct (np_op_same Rminus mua (mkarr n 1 (mmul n mid (mmul k y s)))) as (mc & Emc & Hmc);
    [exact Hr|reflexivity|]. unfold np_sub at 1. rewrite Emc. cbn [bind].
  unfold np_solve. cbn [np_T a_r a_c a_m]. rewrite Nat.eqb_refl. cbn [andb].
  destruct (solve_definite ls k (AKAt n (a_m M) K) (mmul n (a_m M) y) G (mtr y) Hx D TK I1) as (U & EU & HU).
  rewrite EU. cbn [bind]. rewrite Ho. rewrite np_dot_ok by reflexivity. cbn [bind a_r a_c a_m].
  destruct (np_op_same Rminus (spd_matrix o) (mkarr n n (mmul k y U))) as (K1 & EK1 & HK1);
    [cbn; congruence|cbn; congruence|]. unfold np_sub at 1. rewrite EK1. cbn [bind a_r a_c a_m spd_matrix].
  rewrite np_dot_ok by (cbn; congruence). cbn [bind a_r a_c a_m np_T].
  rewrite np_dot_ok by (cbn; congruence). cbn [bind a_r a_c a_m]. rewrite Hs.
  set (C := mmul n mid (mmul n K1 (mtr mid))).
  assert (HCS : meq n n C S).
  { unfold C. rewrite mmul_id_l, mtr_id, mmul_id_r. intros i j Hi Hj. rewrite (HCS0 i j Hi Hj), HK1. unfold msub. cbn [a_m]. fold KA.
    rewrite (HG i j Hi Hj). f_equal.
    assert (T : meq n n (mmul k y U) (mmul k KA (mmul k G (mmul n (a_m M) K)))).
    { rewrite Hy, (HU n), Hy. unfold KA at 2. rewrite (mtr_mul k n n K), mtr_tr. unfold symmetric in Sy. rewrite Sy. reflexivity. }
    exact (T i j Hi Hj). }
  destruct (eig_init_ok lx n C None None (default_bound_nonneg n C)) as [e' He'].
  unfold gf_init. destruct (n =? 0)%nat eqn:En0; [apply Nat.eqb_eq in En0; lia|].
  cbn [a_r]. change (a_c mua) with 1%nat. change (a_r mua) with (a_r (g_mean f)). rewrite Hn, En0, Hr, Nat.eqb_refl. cbn [bind]. unfold set_covariance, square. cbn [a_r a_c a_m].
  rewrite Nat.eqb_refl, He'. cbn [bind set_precision set_support].
  set (g0 := {| g_n := n; g_mean := mkarr n 1 mc; g_canonical := None; g_cov := Some (SEig e'); g_prec := None; g_supp := None |}).
  destruct (eig_init_wf _ _ _ _ _ _ He' (Hex C HCS)) as (En & EC & EM & Ed & nu & W).
  destruct (update_support_ok g0 e' nu n eq_refl eq_refl eq_refl En EM W) as (rk & V & Dg & EU2 & R1 & R2 & R3 & R4).
  rewrite EU2. cbn [bind].
  exists C, e'. eexists. split; [reflexivity|]. split; [exact HCS|]. split; [exact He'|].
  cbn [g_mean g_cov g_prec g_n g_supp g0 a_r a_c a_m].
  split; [reflexivity|]. split; [reflexivity|]. split; [|split; [reflexivity|split; [reflexivity|]]].
  - intros i Hi. rewrite Hmc. cbn [mua a_m]. rewrite (HCm i Hi). fold (mu i). f_equal.
    assert (X2 : meq k 1 r (msub (mmul n (a_m M) (fun i _ => mu i)) (fun i _ => e0 i))).
    { intros a b Ha Hb. rewrite Hrr. rewrite Mc. assert (b = 0)%nat as -> by lia. reflexivity. }
    assert (T : meq n 1 (mmul n mid (mmul k y s)) (mmul k KA (mmul k G (msub (mmul n (a_m M) (fun i _ => mu i)) (fun i _ => e0 i))))).
    { rewrite mmul_id_l, Hy, (Hs' 1%nat), X2. reflexivity. }
    rewrite (T i O Hi ltac:(lia)). reflexivity.
  - exists rk, V, Dg. split; [reflexivity|]. split; [reflexivity|]. auto.
Qed.

(** ** the mean of the conditioned field satisfies the constraint, with or without support *)
Lemma bidx_lt : forall a n i, (a = n \/ a = 1)%nat -> (i < n)%nat -> (bidx a n i < a)%nat.
Proof. intros a n i H Hi. unfold bidx. destruct (Nat.eqb_spec a n); lia. Qed.
Lemma bdim_1_l : forall a, bdim 1 a = Some a.
Proof. intros. unfold bdim. destruct (Nat.eqb_spec 1 a) as [->|]; reflexivity. Qed.
Lemma bidx_1 : forall n j, (j < n)%nat -> bidx 1 n j = 0%nat.
Proof. intros n j H. unfold bidx. destruct (Nat.eqb_spec 1 n); lia. Qed.

Lemma reduced_residual : forall f A mu e Vk Ak mk ek Amu r, cond_reduce f A mu e = Ok (Vk, Ak, mk, ek) ->
  (forall V, g_supp f = Some V -> a_r V = g_n f) -> a_c A = g_n f -> a_r mu = g_n f -> a_c mu = 1%nat -> a_r e = a_r A ->
  np_dot Ak mk = Ok Amu -> np_sub Amu ek = Ok r ->
  a_r r = a_r A /\ a_c r = a_c e /\
  forall i j, (i < a_r A)%nat -> (j < a_c e)%nat ->
    a_m r i j = mmul (g_n f) (a_m A) (a_m mu) i O - a_m e i j.
Proof.
  intros f A mu e Vk Ak mk ek Amu r H Hs Hc Hr Hm He EA Er. unfold cond_reduce in H.
  destruct (g_supp f) as [V|] eqn:Es.
  - apply bind_ok in H. destruct H as (X1 & E1 & H).
    apply bind_ok in H. destruct H as (X2 & E2 & H).
    apply bind_ok in H. destruct H as (p & E3 & H).
    apply bind_ok in H. destruct H as (Ap & E4 & H).
    apply bind_ok in H. destruct H as (X5 & E5 & H). injection H as <- <- <- <-.
    unfold gf_project in E3. rewrite Es in E3.
    apply bind_ok in E3. destruct E3 as (c & Ec & E3). rewrite E2 in Ec. injection Ec as <-.
    apply bind_ok in E3. destruct E3 as (Pb & EP & E3).
    destruct (np_dot_inv _ _ _ E1) as [Y1 ->]. destruct (np_dot_inv _ _ _ E2) as [Y2 ->].
    destruct (np_dot_inv _ _ _ EP) as [Y3 ->]. destruct (np_dot_inv _ _ _ E4) as [Y4 ->].
    destruct (np_dot_inv _ _ _ EA) as [Y6 ->]. cbn [a_r a_c a_m np_T] in *.
    specialize (Hs V eq_refl).
    destruct (np_op_inv _ _ _ _ E3) as (P1 & P2 & P3). destruct (np_op_inv _ _ _ _ E5) as (Q1 & Q2 & Q3).
    destruct (np_op_inv _ _ _ _ Er) as (R1 & R2 & R3). cbn [a_r a_c a_m] in *.
    rewrite Hm in *. rewrite bdim_refl in P2. injection P2 as P2. rewrite Hr, Hs, bdim_refl in P1. injection P1 as P1.
    rewrite He, bdim_refl in Q1. injection Q1 as Q1. rewrite <- P2, bdim_1_r in Q2. injection Q2 as Q2.
    rewrite <- Q1, bdim_refl in R1. injection R1 as R1. rewrite <- Q2, bdim_1_l in R2. injection R2 as R2.
    split; [auto|]. split; [auto|]. intros i j Hi Hj.
    rewrite R3, <- R1, <- Q1, <- R2, <- Q2, !bidx_refl, bidx_1 by auto.
    rewrite Q3, <- Q1, <- Q2, <- P2, He, !bidx_refl, bidx_1 by auto.
    assert (T : meq (a_r A) 1 (mmul (a_c A) (a_m A) (a_m p))
       (msub (mmul (g_n f) (a_m A) (a_m mu)) (mmul (a_c V) (mmul (a_c A) (a_m A) (a_m V)) (mmul (a_r V) (mtr (a_m V)) (a_m mu))))).
    { rewrite (mmul_assoc (a_r A) (a_c A) (a_c V) 1). rewrite <- Hc. rewrite <- mmul_sub_r.
      apply mmul_proper; [reflexivity|]. intros a b Ha Hb. assert (b = 0)%nat as -> by lia.
      rewrite P3, <- P2, <- P1, Hr, Hs, !bidx_refl. reflexivity. }
    rewrite (T i O Hi ltac:(lia)). unfold msub. ring.
  - injection H as <- <- <- <-. destruct (np_dot_inv _ _ _ EA) as [Y6 ->].
    destruct (np_op_inv _ _ _ _ Er) as (R1 & R2 & R3). cbn [a_r a_c a_m] in *.
    rewrite Hm in *. rewrite He, bdim_refl in R1. injection R1 as R1. rewrite bdim_1_l in R2. injection R2 as R2.
    split; [auto|]. split; [auto|]. intros i j Hi Hj.
    rewrite R3, <- R1, <- R2, He, !bidx_refl, bidx_1 by auto. rewrite Hc. reflexivity.
Qed.

Lemma cond_field_mean : forall lx ls f rnd A M e k z md g,
  gf_condition lx ls f rnd A e Field k z md = Ok (CField g) ->
  obs_matrix (g_n f) A = Ok M -> a_c M = g_n f -> a_r e = a_r M -> a_r (g_mean f) = g_n f ->
  (forall V, g_supp f = Some V -> a_r V = g_n f) -> exact_solver ls (a_r M) ->
  a_r (g_mean g) = g_n f /\ a_c (g_mean g) = a_c e /\
  forall i j, (i < a_r M)%nat -> (j < a_c e)%nat ->
    sum (g_n f) (fun l => a_m M i l * a_m (g_mean g) l j) = a_m e i j.
Proof.
  intros lx ls f rnd A M e k z md g H HM Hc He Hr Hs Hx. unfold gf_condition in H.
  apply bind_ok in H. destruct H as (u & _ & H).
  apply bind_ok in H. destruct H as (mu & Emu & H).
  apply bind_ok in H. destruct H as (M' & EM & H). rewrite HM in EM. injection EM as <-.
  apply bind_ok in H. destruct H as ([[[Vk Ak] mk] ek] & Er & H).
  apply bind_ok in H. destruct H as (kk & Ek & H).
  apply bind_ok in H. destruct H as (g' & EX & H). injection H as <-.
  destruct (cond_reduce_inv _ _ _ _ _ _ _ _ Er Hs Hc) as (V1 & V2 & V3 & V4).
  unfold gf_mean, np_col in Emu. destruct (0 <? a_c (g_mean f))%nat; [|discriminate]. injection Emu as <-.
  set (mu := mkarr (a_r (g_mean f)) 1 (fun i _ => a_m (g_mean f) i O)) in *.
  unfold cond_field in EX.
  apply bind_ok in EX. destruct EX as (Amu & EAmu & EX).
  apply bind_ok in EX. destruct EX as (r & E_r & EX).
  destruct kk as [[KAT AKAT]|]; [|discriminate].
  apply bind_ok in EX. destruct EX as (s & Es & EX).
  apply bind_ok in EX. destruct EX as (Ks & EKs & EX).
  apply bind_ok in EX. destruct EX as (c & Ec & EX).
  apply bind_ok in EX. destruct EX as (mc & Emc & EX).
  apply bind_ok in EX. destruct EX as (U & EU & EX).
  destruct md; try discriminate. destruct (g_cov f) as [o|]; [|discriminate].
  do 4 (apply bind_ok in EX; let y0 := fresh "y" in destruct EX as (y0 & ? & EX)).
  apply bind_ok in EX. destruct EX as (g0 & Eg0 & EX).
  assert (Hmean : g_mean g' = mc).
  { transitivity (g_mean g0).
    - unfold gf_update_support in EX. destruct (g_cov g0) as [[e'| |]|]; try discriminate.
      apply bind_ok in EX. destruct EX as (? & _ & EX). apply bind_ok in EX. destruct EX as (? & _ & EX).
      injection EX as <-. reflexivity.
    - unfold gf_init in Eg0. destruct (g_n f =? 0)%nat; [discriminate|].
      destruct (a_r mc =? g_n f)%nat; [|discriminate]. cbn [bind] in Eg0.
      apply bind_ok in Eg0. destruct Eg0 as (? & _ & Eg0).
      apply bind_ok in Eg0. destruct Eg0 as (? & _ & Eg0).
      apply bind_ok in Eg0. destruct Eg0 as (? & _ & Eg0). injection Eg0 as <-. reflexivity. }
  rewrite Hmean.
  destruct (reduced_residual _ _ _ _ _ _ _ _ _ _ Er Hs Hc Hr eq_refl He EAmu E_r) as (RR & RC & Rv).
  destruct (cond_KAT_inv _ _ _ _ _ Ek) as (K1 & K2 & ->).
  destruct (np_dot_inv _ _ _ EKs) as [X2 ->]. destruct (np_dot_inv _ _ _ Ec) as [X3 ->].
  destruct (np_solve_inv _ _ _ _ Es) as (x & _ & U1 & -> & U2). cbn [a_r a_c a_m] in *.
  destruct (np_op_inv _ _ _ _ Emc) as (S1 & S2 & S3). cbn [a_r a_c a_m mu] in *.
  rewrite V2 in U2. pose proof (Hx (mmul (a_c Ak) (a_m Ak) (a_m KAT)) (a_m r)) as Hx'. rewrite U2 in Hx'. cbn in Hx'.
  rewrite Hr, V1, bdim_refl in S1. injection S1 as S1. rewrite bdim_1_l in S2. injection S2 as S2.
  split; [auto|]. split; [congruence|]. intros i j Hi Hj.
  assert (HX : forall l, (l < g_n f)%nat -> a_m mc l j =
    a_m (g_mean f) l O - mmul (a_c Vk) (a_m Vk) (mmul (a_c KAT) (a_m KAT) x) l j).
  { intros l Hl. rewrite S3, <- S1, <- S2, RC, Hr, V1, !bidx_refl. reflexivity. }
  rewrite (sum_ext (g_n f) _ (fun l => a_m M i l * a_m (g_mean f) l O -
     a_m M i l * mmul (a_c Vk) (a_m Vk) (mmul (a_c KAT) (a_m KAT) x) l j))
    by (intros l Hl; rewrite (HX l Hl); ring).
  rewrite sum_sub.
  assert (T : meq (a_r M) (a_c r) (mmul (g_n f) (a_m M) (mmul (a_c Vk) (a_m Vk) (mmul (a_c KAT) (a_m KAT) x))) (a_m r)).
  { rewrite <- (mmul_assoc (a_r M) (g_n f) (a_c Vk) (a_c r)). rewrite <- V4.
    rewrite K1, <- V3, V2. rewrite <- (mmul_assoc (a_r M) (a_c Ak) (a_r M) (a_c r)). apply Hx'. }
  rewrite <- RC in Hj. specialize (T i j Hi Hj). unfold mmul at 1 in T. rewrite T.
  rewrite RC in Hj. rewrite (Rv i j Hi Hj). unfold mmul. cbn [mu a_m]. ring.
Qed.

(** * GaussianField.condition: the law of the conditioned samples *)
From Coq Require Import List Arith Reals Lia Lra Setoid Morphisms.
From Verif Require Import Tree RMat Spd SpecSpd SpdFacts SpdEig SpdKer Prop_Eig Prop_Chol Gauss SpecGauss GaussFacts GaussCond.
Import ListNotations.
Local Open Scope R_scope.

(** multiplication with the covariance in either mode *)
Definition times_K (f : field) (md : mode) (b : arr) : res arr :=
  match md with
  | Covariance => match g_cov f with Some K => spd_dot K b | None => Err AssertionError end
  | _ => match g_prec f with Some Q => spd_solve Q b | None => Err AssertionError end
  end.

(** ** Linear algebra *)
Lemma AKAt_sym : forall n k A K, symmetric n K -> symmetric k (AKAt n A K).
Proof.
  intros n k A K H. unfold symmetric, AKAt in *. rewrite mtr_mul, mtr_mul, mtr_tr. rewrite H.
  apply mmul_assoc.
Qed.
Lemma mv_meq : forall n k A B x i, meq n k A B -> (i < n)%nat -> mv k A x i = mv k B x i.
Proof. intros n k A B x i H Hi. unfold mv. apply sum_ext. intros j Hj. rewrite (H i j Hi Hj). reflexivity. Qed.
Lemma qf_mv : forall n A x, qf n A x = sum n (fun i => x i * mv n A x i).
Proof.
  intros n A x. unfold qf, mv. apply sum_ext. intros i Hi. rewrite <- sum_scal.
  apply sum_ext. intros j Hj. ring.
Qed.
Lemma definite_kernel : forall k T T' y, definite k T -> meq k k T' T -> nonzero k y ->
  (forall i, (i < k)%nat -> mv k T' y i = 0) -> False.
Proof.
  intros k T T' y D E N Z0. specialize (D y N). rewrite qf_mv in D.
  rewrite (sum_zero k) in D; [lra|]. intros i Hi. rewrite <- (mv_meq k k T' T y i E Hi), Z0 by auto. ring.
Qed.
Lemma definite_inverse : forall ls k T, exact_solver ls k -> definite k T -> exists G, inverse k T G.
Proof.
  intros ls k T Hx D. pose proof (Hx T mid) as H. destruct (ls k T mid) as [G|].
  - exists G. apply inverse_of_right. apply H.
  - destruct H as (y & N & Z0). exfalso. apply (definite_kernel k T T y); auto. reflexivity.
Qed.
Lemma solve_definite : forall ls k T T' G b, exact_solver ls k -> definite k T -> meq k k T' T -> inverse k T G ->
  exists x, ls k T' b = Some x /\ forall m, meq k m x (mmul k G b).
Proof.
  intros ls k T T' G b Hx D E I1. pose proof (Hx T' b) as H. destruct (ls k T' b) as [x|].
  - exists x. split; [reflexivity|]. intros m. apply (inverse_solve k m T); auto. rewrite <- E. apply H.
  - destruct H as (y & N & Z0). exfalso. apply (definite_kernel k T T' y); auto.
Qed.

Lemma independent_definite : forall n k A K, definite n K -> independent k n A -> definite k (AKAt n A K).
Proof.
  intros n k A K D H y (i & Hi & Ny). unfold AKAt.
  assert (Q : qf k (mmul n A (mmul n K (mtr A))) y = qf n K (mv k (mtr A) y)).
  { pose proof (qf_conj k n A K y) as Q. exact Q. }
  rewrite Q. apply D. destruct (find_nonzero n (mv k (mtr A) y)) as [(j & Hj & Nj)|Z0].
  - exists j. auto.
  - exfalso. apply Ny. apply (H y); auto. intros j Hj. rewrite <- (Z0 j Hj). unfold mv, mtr.
    apply sum_ext. intros l Hl. ring.
Qed.

(** B = (I - KA'GA)W is a square root of K - KA'GAK *)
Lemma krig_root : forall n k A K G W, symmetric n K -> inverse k (AKAt n A K) G -> square_root n K W ->
  square_root n (msub K (mmul k (mmul n K (mtr A)) (mmul k G (mmul n A K))))
    (msub W (mmul k (mmul n K (mtr A)) (mmul k G (mmul n A W)))).
Proof.
  intros n k A K G W Sy I1 HW. pose proof (inverse_sym _ _ _ I1 (AKAt_sym n k A K Sy)) as SG.
  destruct I1 as [I1 I2]. unfold symmetric, square_root, AKAt in *.
  set (KA := mmul n K (mtr A)) in *. set (AK := mmul n A K).
  assert (T1 : meq k n (mtr KA) AK).
  { unfold KA, AK. rewrite mtr_mul, mtr_tr, Sy. reflexivity. }
  assert (HW' : meq k n (mmul n (mmul n A W) (mtr W)) AK) by (rewrite mmul_assoc, HW; reflexivity).
  assert (T2 : meq n n (mtr (mmul k KA (mmul k G (mmul n A W)))) (mmul k (mmul n (mtr W) (mtr A)) (mmul k G AK))).
  { rewrite (mtr_mul n k n KA (mmul k G (mmul n A W))).
    rewrite (mtr_mul n k k G (mmul n A W)). rewrite (mtr_mul n n k A W). rewrite SG, T1. apply mmul_assoc. }
  rewrite mtr_sub, T2.
  rewrite mmul_sub_l, !mmul_sub_r, HW.
  assert (Y1 : meq n n (mmul n W (mmul k (mmul n (mtr W) (mtr A)) (mmul k G AK))) (mmul k KA (mmul k G AK))).
  { rewrite <- (mmul_assoc n n k n W). rewrite <- (mmul_assoc n n n k W (mtr W) (mtr A)). rewrite HW. reflexivity. }
  assert (Y2 : meq n n (mmul n (mmul k KA (mmul k G (mmul n A W))) (mtr W)) (mmul k KA (mmul k G AK))).
  { rewrite (mmul_assoc n k n n KA). rewrite (mmul_assoc k k n n G). rewrite HW'. reflexivity. }
  assert (Y3 : meq n n (mmul n (mmul k KA (mmul k G (mmul n A W))) (mmul k (mmul n (mtr W) (mtr A)) (mmul k G AK)))
                       (mmul k KA (mmul k G AK))).
  { rewrite (mmul_assoc n k n n KA (mmul k G (mmul n A W))). rewrite (mmul_assoc k k n n G (mmul n A W)).
    rewrite <- (mmul_assoc k n k n (mmul n A W) (mmul n (mtr W) (mtr A))).
    rewrite (mmul_assoc k n n k A W). rewrite <- (mmul_assoc n n n k W (mtr W) (mtr A)). rewrite HW. fold KA.
    rewrite <- (mmul_assoc k k k n (mmul n A KA) G). rewrite I1, mmul_id_l. reflexivity. }
  rewrite Y1, Y2, Y3. intros i j Hi Hj. unfold msub. ring.
Qed.

(** ** The conditioned samples *)
Lemma krig_draws : forall lx ls f md o n k K W rnd A M e ns,
  (md = Covariance \/ md = Precision) -> object f md = Some o -> spd_size o = n ->
  g_n f = n -> a_r (g_mean f) = n -> a_c (g_mean f) = 1%nat -> g_supp f = None ->
  obs_matrix n A = Ok M -> a_r M = k -> a_c M = n -> a_r e = k -> a_c e = 1%nat ->
  symmetric n K -> square_root n K W -> applies n (noise f md) W -> applies n (times_K f md) K ->
  exact_solver ls k -> definite k (AKAt n (a_m M) K) ->
  exists m S, conditional n k (a_m M) (fun i => a_m e i O) (fun i => a_m (g_mean f) i O) K m S /\
    draws n n (fun z => sample_of (gf_condition lx ls f rnd A e Sample ns (Some z) md)) m S /\
    gf_condition lx ls f rnd A e Sample ns None md =
    gf_condition lx ls f rnd A e Sample ns (Some (mkarr n ns rnd)) md.
Proof.
  intros lx ls f md o n k K W rnd A M e ns Hmd Ho Hs Hn Hr Hc Hsup HM Mr Mc Er Ec Sy HW Nz Kx Hx D.
  destruct (definite_inverse ls k _ Hx D) as (G & I1).
  set (KA := mmul n K (mtr (a_m M))).
  set (mu := fun i => a_m (g_mean f) i O). set (e0 := fun i => a_m e i O).
  set (m := fun i => mu i - mv k KA (mv k G (fun l => mv n (a_m M) mu l - e0 l)) i).
  set (S := msub K (mmul k KA (mmul k G (mmul n (a_m M) K)))).
  exists m, S. split; [exists G; split; [exact I1|split; [reflexivity|reflexivity]]|].
  assert (Hmd' : md <> OtherMode) by (destruct Hmd; congruence).
  destruct (sample_applies f md o n W rnd ns Hmd' Ho Hs Hr Hc Nz) as [Sa Sn].
  (* the common prefix of condition *)
  assert (Pre : forall z, gf_condition lx ls f rnd A e Sample ns z md =
    bind (cond_KAT f M md) (fun kk => bind (cond_sample ls f rnd M e (mkarr n n mid) kk ns z md) (fun X => Ok (CSample X)))).
  { intros z. unfold gf_condition.
    assert (E1 : cond_assert f md = Ok tt).
    { unfold cond_assert. destruct Hmd as [-> | ->]; unfold object in Ho; rewrite Ho; reflexivity. }
    rewrite E1. cbn [bind]. unfold gf_mean, np_col. rewrite Hc. cbn [Nat.ltb Nat.leb bind].
    rewrite Hn, HM. cbn [bind]. unfold cond_reduce. rewrite Hsup, Hn. cbn [bind]. reflexivity. }
  assert (KK : exists y, cond_KAT f M md = Ok (Some (mkarr n k y, mkarr k k (mmul n (a_m M) y))) /\
     meq n k y KA).
  { destruct (Kx (np_T M)) as (y & Ey & Hy); [exact Mc|]. exists y. cbn [np_T a_c a_m] in Ey, Hy. rewrite Mr in Ey.
    split; [|apply Hy]. unfold cond_KAT, times_K, object in *.
    destruct Hmd as [-> | ->]; rewrite Ho in *; rewrite Ey; cbn [bind]; unfold np_dot; cbn [a_r a_c a_m];
      rewrite Mc, Nat.eqb_refl, Mr; reflexivity. }
  destruct KK as (y & EK & Hy).
  split.
  - exists (msub W (mmul k KA (mmul k G (mmul n (a_m M) W)))).
    split; [exact (krig_root n k (a_m M) K G W Sy I1 HW)|].
    intros z Hz. cbn beta. rewrite Pre, EK. cbn [bind]. unfold cond_sample.
    destruct (Sa z Hz) as (Xs & EXs & HXs). rewrite EXs. cbn [bind].
    rewrite np_dot_ok by (cbn; exact Mc). cbn [bind a_c a_m a_r].
    destruct (np_op_col Rminus (mkarr (a_r M) (a_c z) (mmul (a_c M) (a_m M) Xs)) e) as (r & Err & Hrr);
      [cbn; congruence|exact Ec|]. unfold np_sub at 1. rewrite Err. cbn [bind a_c a_m a_r] in *.
    unfold np_solve. cbn [a_r a_c a_m]. rewrite Mr, Nat.eqb_refl. cbn [andb].
    destruct (solve_definite ls k (AKAt n (a_m M) K) (mmul n (a_m M) y) G r Hx D) as (U & EU & HU); [|exact I1|].
    { unfold AKAt. rewrite Hy. reflexivity. }
    rewrite EU. cbn [bind].
    rewrite np_dot_ok by reflexivity. cbn [bind a_r a_c a_m].
    rewrite np_dot_ok by reflexivity. cbn [bind a_r a_c a_m].
    destruct (np_op_same Rminus (mkarr n (a_c z) Xs) (mkarr n (a_c z) (mmul n mid (mmul k y U)))) as (X & EX & HX);
      [reflexivity|reflexivity|]. unfold np_sub. rewrite EX. cbn [bind sample_of a_r a_c a_m] in *.
    eexists. split; [reflexivity|]. split; [reflexivity|]. split; [reflexivity|]. cbn [a_m].
    set (c := a_c z) in *.
    set (Mu := fun i (_ : nat) => mu i). set (E := fun i (_ : nat) => e0 i).
    assert (X1 : meq n c Xs (madd Mu (mmul n W (a_m z)))).
    { intros i j Hi Hj. rewrite HXs by auto. reflexivity. }
    assert (X2 : meq k c r (msub (mmul n (a_m M) Xs) E)).
    { intros i j Hi Hj. rewrite Hrr by auto. rewrite Mc. reflexivity. }
    assert (X3 : meq n c X (msub Xs (mmul k KA (mmul k G r)))).
    { intros i j Hi Hj. rewrite HX. unfold msub. f_equal.
      assert (T : meq n c (mmul n mid (mmul k y U)) (mmul k KA (mmul k G r))).
      { rewrite mmul_id_l, Hy, (HU c). reflexivity. }
      exact (T i j Hi Hj). }
    assert (X4 : meq n c X (madd (fun i _ => m i) (mmul n (msub W (mmul k KA (mmul k G (mmul n (a_m M) W)))) (a_m z)))).
    { rewrite X3, X2, X1.
      assert (T : meq k c (msub (mmul n (a_m M) (madd Mu (mmul n W (a_m z)))) E)
                  (madd (msub (mmul n (a_m M) Mu) E) (mmul n (mmul n (a_m M) W) (a_m z)))).
      { rewrite mmul_add_r, mmul_assoc. intros i j Hi Hj. unfold msub, madd. ring. }
      rewrite T. rewrite (mmul_add_r k k c G). rewrite (mmul_add_r n k c KA).
      rewrite (mmul_sub_l n n c W). rewrite (mmul_assoc n k n c KA). rewrite (mmul_assoc k k n c G).
      intros i j Hi Hj. unfold msub, madd at 1 2 3, Mu.
      assert (T2 : m i = mu i - mmul k KA (mmul k G (msub (mmul n (a_m M) (fun i _ => mu i)) E)) i j) by reflexivity.
      rewrite T2. unfold msub, madd. ring. }
    intros i j Hi Hj. rewrite (X4 i j Hi Hj). reflexivity.
  - rewrite !Pre, EK. cbn [bind]. unfold cond_sample. rewrite Sn. reflexivity.
Qed.

(** ** What the formulas mean *)
Lemma mv_sub : forall n A x y i, mv n A (fun j => x j - y j) i = mv n A x i - mv n A y i.
Proof. intros n A x y i. unfold mv. rewrite <- sum_sub. apply sum_ext. intros; ring. Qed.
Lemma mv_inverse : forall n A B x i, meq n n (mmul n A B) mid -> (i < n)%nat -> mv n A (mv n B x) i = x i.
Proof.
  intros n A B x i H Hi. rewrite <- mv_mmul. rewrite (mv_meq n n _ mid x i H Hi). exact (mv_id n x i Hi).
Qed.
Lemma mv_tr : forall n k A x y, sum n (fun i => x i * mv k (mtr A) y i) = sum k (fun l => y l * mv n A x l).
Proof.
  intros n k A x y. unfold mv, mtr.
  transitivity (sum n (fun i => sum k (fun l => x i * (A l i * y l)))).
  - apply sum_ext. intros i _. rewrite <- sum_scal. reflexivity.
  - rewrite sum_swap. apply sum_ext. intros l _. rewrite <- sum_scal. apply sum_ext. intros; ring.
Qed.

Section Meaning.
Variables (n k : nat) (A K : mat) (e mu m : nat -> R) (S : mat).
Hypothesis HK : symmetric n K.
Hypothesis HC : conditional n k A e mu K m S.

Lemma cond_mean_ok : forall i, (i < k)%nat -> mv n A m i = e i.
Proof.
  destruct HC as (G & [I1 I2] & Hm & _). intros i Hi. rewrite (mv_ext n A m _ i Hm). rewrite mv_sub.
  rewrite <- (mv_mmul n k A). change (mmul n A (mmul n K (mtr A))) with (AKAt n A K).
  rewrite (mv_inverse k _ _ (fun l => mv n A mu l - e l) i I1 Hi). ring.
Qed.
Lemma cond_cov_zero : meq k n (mmul n A S) mzero.
Proof.
  destruct HC as (G & [I1 I2] & _ & HS). rewrite HS. rewrite mmul_sub_r.
  rewrite <- (mmul_assoc k n k n A). change (mmul n A (mmul n K (mtr A))) with (AKAt n A K).
  rewrite <- (mmul_assoc k k k n (AKAt n A K)). rewrite I1, mmul_id_l.
  intros i j Hi Hj. unfold msub, mzero. ring.
Qed.
Lemma cond_cov_sym : symmetric n S.
Proof.
  destruct HC as (G & I1 & _ & HS). pose proof (inverse_sym _ _ _ I1 (AKAt_sym n k A K HK)) as SG.
  unfold symmetric in *. rewrite HS. rewrite mtr_sub, HK.
  rewrite (mtr_mul n k n), (mtr_mul n k k), (mtr_mul n n k), (mtr_mul k n n), mtr_tr, SG, HK.
  rewrite (mmul_assoc n k k n). reflexivity.
Qed.
(** S = P K P' with P = I - KA'GA *)
Lemma cond_cov_psd : semidefinite n K -> semidefinite n S.
Proof.
  intros Hp x. pose proof cond_cov_zero as Z0. pose proof cond_cov_sym as Sy.
  destruct HC as (G & [I1 I2] & _ & HS).
  set (P := msub mid (mmul k (mmul n K (mtr A)) (mmul k G A))).
  assert (E1 : meq n n (mmul n P K) S).
  { unfold P. rewrite mmul_sub_l, mmul_id_l, HS. rewrite (mmul_assoc n k n n), (mmul_assoc k k n n). reflexivity. }
  assert (E2 : meq n n (mmul n P S) S).
  { unfold P. rewrite mmul_sub_l, mmul_id_l. rewrite (mmul_assoc n k n n), (mmul_assoc k k n n), Z0.
    intros i j Hi Hj. unfold msub. assert (T : meq n n (mmul k (mmul n K (mtr A)) (mmul k G mzero)) mzero).
    { intros a b Ha Hb. unfold mmul, mzero. apply sum_zero. intros l Hl. rewrite (sum_zero k); [ring|]. intros; ring. }
    rewrite (T i j Hi Hj). unfold mzero. ring. }
  assert (E3 : meq n n (mmul n P (mmul n K (mtr P))) S).
  { unfold symmetric in *. rewrite <- HK at 1. rewrite <- mtr_mul, E1, Sy. exact E2. }
  rewrite (qf_ext n S _ x (symmetry E3)). rewrite qf_conj. apply Hp.
Qed.
(** the explained part K - S is positive semidefinite *)
Lemma cond_cov_le : semidefinite n K -> forall x, qf n S x <= qf n K x.
Proof.
  intros Hp x. destruct HC as (G & I1 & _ & HS).
  pose proof (inverse_sym _ _ _ I1 (AKAt_sym n k A K HK)) as SG. destruct I1 as [I1 I2].
  rewrite (qf_ext n S _ x HS).
  set (KA := mmul n K (mtr A)). set (T := mmul k KA (mmul k G (mmul n A K))).
  assert (Q : qf n (msub K T) x = qf n K x - qf n T x).
  { assert (E : qf n K x = qf n (madd (msub K T) T) x).
    { apply qf_ext. intros i j _ _. unfold madd, msub. ring. }
    rewrite E, qf_add. ring. }
  rewrite Q. enough (0 <= qf n T x) by lra.
  assert (T1 : meq k n (mmul n A K) (mtr KA)).
  { unfold KA, symmetric in *. rewrite mtr_mul, mtr_tr, HK. reflexivity. }
  rewrite (qf_ext n T (mmul k KA (mmul k G (mtr KA))) x) by (unfold T; rewrite T1; reflexivity).
  rewrite qf_conj.
  (* G = G (AKA') G' *)
  assert (T2 : meq k k G (mmul k G (mmul k (AKAt n A K) (mtr G)))).
  { unfold symmetric in SG. rewrite SG, I1, mmul_id_r. reflexivity. }
  rewrite (qf_ext k G _ _ T2), qf_conj. unfold AKAt. rewrite qf_conj. apply Hp.
Qed.
(** the mean is the point of the constraint closest to mu in the Mahalanobis distance *)
Lemma cond_mean_min : forall Q, inverse n K Q -> semidefinite n Q -> forall x,
  (forall i, (i < k)%nat -> mv n A x i = e i) ->
  qf n Q (fun i => m i - mu i) <= qf n Q (fun i => x i - mu i).
Proof.
  intros Q [J1 J2] Hp x Hx. pose proof cond_mean_ok as Am.
  pose proof (inverse_sym n K Q (conj J1 J2) HK) as SQ.
  destruct HC as (G & [I1 I2] & Hm & _).
  set (g := mv k G (fun l => mv n A mu l - e l)) in *.
  set (u := fun i => m i - mu i). set (v := fun i => x i - m i).
  (* Qu = -A'g *)
  assert (Qu : forall i, (i < n)%nat -> mv n Q u i = - mv k (mtr A) g i).
  { intros i Hi. assert (Eu : forall j, (j < n)%nat -> u j = - mv k (mmul n K (mtr A)) g j).
    { intros j Hj. unfold u. rewrite (Hm j Hj). ring. }
    rewrite (mv_ext n Q u _ i Eu).
    transitivity (- mv n Q (mv k (mmul n K (mtr A)) g) i).
    - set (w := mv k (mmul n K (mtr A)) g). unfold mv.
      rewrite (sum_ext n _ (fun j => (-1) * (Q i j * w j))) by (intros; ring). rewrite sum_scal. ring.
    - f_equal. rewrite (mv_ext n Q _ (mv n K (mv k (mtr A) g)) i) by (intros; apply mv_mmul).
      apply mv_inverse; auto. }
  assert (C0 : sum n (fun i => v i * mv n Q u i) = 0).
  { rewrite (sum_ext n _ (fun i => (-1) * (v i * mv k (mtr A) g i))) by (intros i Hi; rewrite (Qu i Hi); ring).
    rewrite sum_scal, mv_tr. rewrite (sum_zero k); [ring|]. intros l Hl. unfold v. rewrite mv_sub.
    rewrite Hx, Am by auto. ring. }
  assert (C1 : sum n (fun i => u i * mv n Q v i) = 0).
  { rewrite <- C0. rewrite (sum_ext n _ (fun i => u i * mv n (mtr Q) v i)).
    - rewrite mv_tr. reflexivity.
    - intros i Hi. rewrite (mv_meq n n (mtr Q) Q v i SQ Hi). reflexivity. }
  assert (E : qf n Q (fun i => x i - mu i) = qf n Q u + qf n Q v).
  { rewrite !qf_mv.
    rewrite (sum_ext n (fun i => (x i - mu i) * _)
      (fun i => (u i * mv n Q u i + u i * mv n Q v i) + (v i * mv n Q u i + v i * mv n Q v i))).
    - rewrite !sum_add, C0, C1. ring.
    - intros i Hi. assert (T : mv n Q (fun j => x j - mu j) i = mv n Q u i + mv n Q v i).
      { unfold mv. rewrite <- sum_add. apply sum_ext. intros j Hj. unfold u, v. ring. }
      rewrite T. unfold u, v. ring. }
  rewrite E. pose proof (Hp v). fold u. lra.
Qed.
End Meaning.

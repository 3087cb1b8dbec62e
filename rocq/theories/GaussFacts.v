(** * GaussianField: what the matrix objects do, arrays, samples *)
From Coq Require Import List Arith Reals Lia Lra Setoid Morphisms.
From Verif Require Import Tree RMat Spd SpecSpd SpdFacts SpdEig SpdKer Prop_Eig Prop_Chol Gauss SpecGauss.
Import ListNotations.
Local Open Scope R_scope.

(** ** Inverses *)
Lemma inverse_unique : forall n A B B', inverse n A B -> meq n n (mmul n A B') mid -> meq n n B' B.
Proof.
  intros n A B B' [H1 H2] H3.
  rewrite <- (mmul_id_l n n B'), <- H2, mmul_assoc, H3. apply mmul_id_r.
Qed.
Lemma inverse_of_right : forall n A B, meq n n (mmul n A B) mid -> inverse n A B.
Proof. intros n A B H. split; auto. apply left_inv_right_inv; auto. Qed.
Lemma inverse_solve : forall n m A B x b, inverse n A B -> meq n m (mmul n A x) b -> meq n m x (mmul n B b).
Proof.
  intros n m A B x b [H1 H2] H. rewrite <- H, <- mmul_assoc, H2, mmul_id_l. reflexivity.
Qed.
Lemma inverse_sym : forall n A B, inverse n A B -> symmetric n A -> symmetric n B.
Proof.
  intros n A B H S. unfold symmetric in *. apply (inverse_unique n A B); auto.
  rewrite <- S, <- mtr_mul. destruct H as [H1 H2]. rewrite H2. apply mtr_id.
Qed.

Definition not_plain (o : spd) : Prop := match o with SPlain _ _ => False | _ => True end.

(** ** Objects *)
Lemma stands_spec : forall lx n o K, stands_for lx n o K ->
  spd_size o = n /\ symmetric n K /\
  (forall b, a_r b = n -> exists y, spd_dot o b = Ok (mkarr n (a_c b) y) /\
     forall m, meq n m y (mmul n K (a_m b))) /\
  exists W, square_root n K W /\
    forall b, a_r b = n -> exists y, spd_sqrt_dot o b false = Ok (mkarr n (a_c b) y) /\
     forall m, meq n m y (mmul n W (a_m b)).
Proof.
  intros lx n o K H. destruct H as [C M delta e H K|C sp c H K Hd].
  - destruct (eig_init_wf _ _ _ _ _ _ H K) as (En & EC & EM & Ed & mu & W).
    pose proof (root_spec e mu W) as Q3. pose proof (sqrt_dot_spec e) as Q4. pose proof (dot_spec e) as Q2.
    assert (Q3' : square_root n (fst (eig_reconstruct e)) (root e)).
    { rewrite <- En. exact Q3. }
    split; [exact En|]. split; [|split].
    + unfold symmetric, square_root in *. rewrite <- Q3'. rewrite mtr_mul, mtr_tr. reflexivity.
    + intros b Hb. unfold spd_dot, spd_call. cbn [spd_size]. rewrite En, Hb, Nat.eqb_refl. cbn [bind].
      eexists. split; [reflexivity|]. intros m. specialize (Q2 m (a_m b)). rewrite En in Q2. rewrite Q2.
      unfold eig_reconstruct. rewrite En. reflexivity.
    + exists (root e). split; [exact Q3'|]. intros b Hb. unfold spd_sqrt_dot, spd_call. cbn [spd_size].
      rewrite En, Hb, Nat.eqb_refl. cbn [bind]. eexists. split; [reflexivity|]. intros m.
      destruct (Q4 m (a_m b)) as [Q5 _]. rewrite En in Q5. exact Q5.
  - destruct (C54_definite lx n sp C K Hd) as (c' & E & D1' & D2' & R & D & S & W & W1 & W2 & W3).
    rewrite H in E. injection E as <-.
    assert (En : c_n c = n).
    { clear -H. unfold chol_init, modchol_ldlt in H.
      destruct sp.
      - destruct (lx_cholmod lx n C) as [[p L]|]; [injection H as <-; reflexivity|].
        destruct (symmetric_close n C); [|discriminate]. destruct (lx_ldl lx n C) as [[? ?] ?]. cbn in H. injection H as <-. reflexivity.
      - destruct (lx_chol lx n C) as [L|]; [injection H as <-; reflexivity|].
        destruct (symmetric_close n C); [|discriminate]. destruct (lx_ldl lx n C) as [[? ?] ?]. cbn in H. injection H as <-. reflexivity. }
    split; [exact En|]. split; [|split].
    + unfold symmetric, square_root in *. rewrite <- W1. rewrite mtr_mul, mtr_tr. reflexivity.
    + intros b Hb. unfold spd_dot, spd_call. cbn [spd_size]. rewrite En, Hb, Nat.eqb_refl. cbn [bind].
      eexists. split; [reflexivity|]. intros m. apply D.
    + exists W. split; [exact W1|]. intros b Hb. unfold spd_sqrt_dot, spd_call. cbn [spd_size].
      rewrite En, Hb, Nat.eqb_refl. cbn [bind]. eexists. split; [reflexivity|]. intros m. apply (W2 m).
Qed.

(** A square root of the inverse from a solver with the transposed square root *)
Lemma root_inverse : forall n Q W X, square_root n Q W -> meq n n (mmul n (mtr W) X) mid ->
  inverse n Q (mmul n X (mtr X)).
Proof.
  intros n Q W X H1 H2. unfold square_root in H1. pose proof (left_inv_right_inv _ _ _ H2) as H3.
  apply inverse_of_right. rewrite <- H1. rewrite mmul_assoc.
  rewrite <- (mmul_assoc n n n n (mtr W) X). rewrite H2, mmul_id_l.
  rewrite <- (mtr_tr n n W), <- mtr_mul. rewrite H3. apply mtr_id.
Qed.

Lemma invertible_stands : forall lx n o Q, invertible lx n o Q -> stands_for lx n o Q.
Proof. intros lx n o Q H. destruct H; econstructor; eauto. Qed.

Lemma invertible_spec : forall lx n o Q, invertible lx n o Q ->
  exists S, inverse n Q S /\ symmetric n S /\
  (forall b, a_r b = n -> exists y, spd_solve o b = Ok (mkarr n (a_c b) y) /\
     forall m, meq n m y (mmul n S (a_m b))) /\
  exists W, square_root n S W /\
    forall b, a_r b = n -> exists y, spd_sqrt_solve o b true = Ok (mkarr n (a_c b) y) /\
     forall m, meq n m y (mmul n W (a_m b)).
Proof.
  intros lx n o Q H. pose proof (invertible_stands _ _ _ _ H) as St.
  destruct (stands_spec _ _ _ _ St) as (Sz & Sy & _).
  assert (X1 : exists W, square_root n Q W /\ forall b, exists y,
     match o with SEig e => eig_sqrt_solve e b true None | SChol c => chol_sqrt_solve c b true
       | SPlain _ _ => Err TypeError end = Ok y /\ forall m, meq n m (mmul n (mtr W) y) b).
  { destruct H as [C delta e H K Hd|C sp c H K Hd].
    - destruct (eig_init_wf _ _ _ _ _ _ H K) as (En & EC & EM & Ed & mu & W).
      exists (root e). split; [pose proof (root_spec e mu W) as Q3; rewrite <- En; exact Q3|].
      intros b. cbn [spd_size] in Sz.
      assert (Hd' : forall i, (i < e_n e)%nat -> tol_of None < sqrt (e_d e i)) by (intros i Hi; apply Hd; lia).
      destruct (sqrt_solve_spec e mu W 0%nat b None ltac:(discriminate) Hd') as [_ [y [E _]]].
      exists y. split; [exact E|]. intros m.
      destruct (sqrt_solve_spec e mu W m b None ltac:(discriminate) Hd') as [_ [y' [E' E2]]].
      rewrite E in E'. injection E' as <-. rewrite En, EM in E2. cbn [mass] in E2. rewrite mmul_id_l in E2. exact E2.
    - destruct (C54_definite lx n sp C K Hd) as (c' & E & _ & _ & _ & _ & _ & W & W1 & _ & _ & W3).
      rewrite H in E. injection E as <-. exists W. auto. }
  assert (X2 : forall b, exists y,
     match o with SEig e => eig_solve e b None false | SChol c => chol_solve c b
       | SPlain _ _ => Err TypeError end = Ok y /\ forall m, meq n m (mmul n Q y) b).
  { destruct H as [C delta e H K Hd|C sp c H K Hd].
    - destruct (eig_init_wf _ _ _ _ _ _ H K) as (En & EC & EM & Ed & mu & W). intros b. cbn [spd_size] in Sz.
      destruct (dpi_diag e None ltac:(discriminate)) as [Dinv [E HD]].
      { intros i Hi. apply Hd. lia. }
      unfold eig_solve. rewrite E. cbn [bind]. eexists. split; [reflexivity|]. intros m.
      pose proof (Ho' e mu W EM) as Ho. rewrite En in *. unfold eig_reconstruct. rewrite En. cbn [fst].
      rewrite mmul_id_l in Ho.
      rewrite (mmul_assoc n n n m (e_V e)). rewrite (mmul_assoc n n n m (mdiag (e_d e))).
      rewrite <- (mmul_assoc n n n m (mtr (e_V e)) (e_V e)). rewrite Ho, mmul_id_l.
      rewrite <- (mmul_assoc n n n m (mdiag (e_d e)) (mdiag Dinv)). rewrite mdiag_mul.
      rewrite (mdiag_one n (fun i => e_d e i * Dinv i)) by exact HD. rewrite mmul_id_l.
      rewrite <- (mmul_assoc n n n m (e_V e)).
      pose proof (VVt e mu W EM) as OV. rewrite En in OV. rewrite OV. apply mmul_id_l.
    - destruct (C54_definite lx n sp C K Hd) as (c' & E & _ & _ & _ & _ & D & _).
      rewrite H in E. injection E as <-. exact D. }
  destruct X1 as (W & W1 & W2). destruct (W2 mid) as (X & _ & HX).
  pose proof (root_inverse n Q W X W1 (HX n)) as Inv.
  exists (mmul n X (mtr X)). split; [exact Inv|]. split; [exact (inverse_sym _ _ _ Inv Sy)|]. split.
  - intros b Hb. destruct (X2 (a_m b)) as (y & E & Hy). exists y. split.
    + unfold spd_solve, spd_call. rewrite Sz, Hb, Nat.eqb_refl.
      destruct o; cbn [bind]; try (rewrite E; reflexivity). inversion H.
    + intros m. apply (inverse_solve n m Q); auto.
  - exists X. split; [unfold square_root; reflexivity|]. intros b Hb. destruct (W2 (a_m b)) as (y & E & Hy). exists y. split.
    + unfold spd_sqrt_solve, spd_call. rewrite Sz, Hb, Nat.eqb_refl.
      destruct o; cbn [bind]; try (rewrite E; reflexivity). inversion H.
    + intros m. apply (inverse_solve n m (mtr W)); auto. apply inverse_of_right. auto.
Qed.

(** ** Arrays *)
Lemma bdim_refl : forall a, bdim a a = Some a.
Proof. intros. unfold bdim. rewrite Nat.eqb_refl. reflexivity. Qed.
Lemma bdim_1_r : forall a, bdim a 1 = Some a.
Proof. intros. unfold bdim. destruct (a =? 1)%nat eqn:E; [reflexivity|]. reflexivity. Qed.
Lemma bidx_refl : forall a i, bidx a a i = i.
Proof. intros. unfold bidx. rewrite Nat.eqb_refl. reflexivity. Qed.

Lemma np_op_same : forall f A B, a_r A = a_r B -> a_c A = a_c B ->
  exists M, np_op f A B = Ok (mkarr (a_r A) (a_c A) M) /\ forall i j, M i j = f (a_m A i j) (a_m B i j).
Proof.
  intros f A B H1 H2. unfold np_op. rewrite <- H1, <- H2, !bdim_refl.
  eexists. split; [reflexivity|]. intros i j. cbn beta. rewrite !bidx_refl. reflexivity.
Qed.
(** the second array has one column *)
Lemma np_op_col : forall f A B, a_r A = a_r B -> a_c B = 1%nat ->
  exists M, np_op f A B = Ok (mkarr (a_r A) (a_c A) M) /\
    forall i j, (j < a_c A)%nat -> M i j = f (a_m A i j) (a_m B i O).
Proof.
  intros f A B H1 H2. unfold np_op. rewrite <- H1, H2, bdim_refl, bdim_1_r.
  eexists. split; [reflexivity|]. intros i j Hj. cbn beta. rewrite !bidx_refl. unfold bidx.
  destruct (Nat.eqb_spec 1 (a_c A)) as [E|E]; [|reflexivity]. assert (j = 0)%nat as -> by lia. reflexivity.
Qed.
Lemma np_dot_ok : forall A B, a_c A = a_r B ->
  np_dot A B = Ok (mkarr (a_r A) (a_c B) (mmul (a_c A) (a_m A) (a_m B))).
Proof. intros A B H. unfold np_dot. rewrite H, Nat.eqb_refl. reflexivity. Qed.

(** ** Samples *)
(** the object applied to z and the matrix W it applies *)
Definition applies (n : nat) (L : arr -> res arr) (W : mat) : Prop :=
  forall z, a_r z = n -> exists y, L z = Ok (mkarr n (a_c z) y) /\ forall m, meq n m y (mmul n W (a_m z)).

Definition noise (f : field) (md : mode) (z : arr) : res arr :=
  match md with
  | Covariance => match g_cov f with Some C => spd_sqrt_dot C z false | None => Err AssertionError end
  | _ => match g_prec f with Some C => spd_sqrt_solve C z true | None => Err AssertionError end
  end.

Definition object (f : field) (md : mode) : option spd :=
  match md with Covariance => g_cov f | _ => g_prec f end.

Lemma sample_applies : forall f md o n W rnd k,
  md <> OtherMode -> object f md = Some o -> spd_size o = n ->
  a_r (g_mean f) = n -> a_c (g_mean f) = 1%nat ->
  applies n (noise f md) W ->
  (forall z, a_r z = n -> exists M, gf_sample f rnd k (Some z) md = Ok (mkarr n (a_c z) M) /\
     forall i j, (i < n)%nat -> (j < a_c z)%nat ->
       M i j = a_m (g_mean f) i O + sum n (fun l => W i l * a_m z l j)) /\
  gf_sample f rnd k None md = gf_sample f rnd k (Some (mkarr n k rnd)) md.
Proof.
  intros f md o n W rnd k Hm Ho Hs Hr Hc Hw. unfold gf_sample.
  assert (Ho' : match md with Covariance => g_cov f | _ => g_prec f end = Some o) by exact Ho.
  split.
  - intros z Hz. destruct (Hw z Hz) as (y & E & Hy).
    assert (T : exists M, np_add (mkarr n (a_c z) y) (np_tile (g_mean f) (a_c z)) = Ok (mkarr n (a_c z) M) /\
      forall i j, M i j = y i j + a_m (g_mean f) i O).
    { unfold np_add.
      destruct (np_op_same Rplus (mkarr n (a_c z) y) (np_tile (g_mean f) (a_c z))) as (M & E1 & E2).
      - cbn. auto.
      - cbn. rewrite Hc. lia.
      - exists M. split; [exact E1|]. intros i j. rewrite E2. cbn. rewrite Hc. reflexivity. }
    destruct T as (M & E1 & E2). exists M. split.
    + unfold noise in E.
      destruct md; try (exfalso; apply Hm; reflexivity);
        rewrite Ho' in *; cbn [bind]; rewrite Hz, Hs, Nat.eqb_refl; cbn [bind]; rewrite E; cbn [bind]; exact E1.
    + intros i j Hi Hj. rewrite E2. rewrite (Hy (a_c z) i j Hi Hj). unfold mmul. ring.
  - destruct md; try (exfalso; apply Hm; reflexivity);
      rewrite Ho'; cbn [a_r]; rewrite Hs, Nat.eqb_refl; reflexivity.
Qed.

Lemma noise_cov : forall lx n f o K, g_cov f = Some o -> stands_for lx n o K ->
  exists W, square_root n K W /\ applies n (noise f Covariance) W.
Proof.
  intros lx n f o K Ho H. destruct (stands_spec _ _ _ _ H) as (_ & _ & _ & W & W1 & W2).
  exists W. split; auto. intros z Hz. unfold noise. rewrite Ho. apply W2. auto.
Qed.
Lemma noise_prec : forall lx n f o Q md, md <> Covariance -> g_prec f = Some o -> invertible lx n o Q ->
  exists S W, inverse n Q S /\ symmetric n S /\ square_root n S W /\ applies n (noise f md) W.
Proof.
  intros lx n f o Q md Hm Ho H. destruct (invertible_spec _ _ _ _ H) as (S & I1 & I2 & _ & W & W1 & W2).
  exists S, W. split; [auto|]. split; [auto|]. split; [auto|]. intros z Hz. unfold noise.
  destruct md; [congruence| | |]; rewrite Ho; apply W2; auto.
Qed.

(** * Facts about the covariance functions of src/gmrf.py *)
From Coq Require Import List Arith Reals Lia Lra Psatz.
From Verif Require Import Tree RMat Spd SpecSpd PdFacts CndFacts Gauss CovFun SpecCov.
Import ListNotations.
Local Open Scope R_scope.

(** ** From values to covariance matrices *)
Lemma gives_valid : forall k x f, gives k x f -> pd (a_r x) f -> valid_kernel k x.
Proof.
  intros k x f (K & HK & E) H. exists K. split; [exact HK|].
  assert (P : pd (a_r x) K) by (eapply pd_ext; [|exact H]; intros; symmetry; apply E; auto).
  split; [apply pd_symmetric|apply pd_semidefinite]; exact P.
Qed.
Lemma gives_ext : forall k x f g, gives k x f ->
  (forall i j, (i < a_r x)%nat -> (j < a_r x)%nat -> f i j = g i j) -> gives k x g.
Proof. intros k x f g (K & HK & E) H. exists K. split; [exact HK|]. intros i j Hi Hj. rewrite E, H by auto. reflexivity. Qed.

Lemma pair_index : forall n i j, (i < n)%nat -> (j < n)%nat ->
  ((i * n + j) / n = i /\ (i * n + j) mod n = j /\ i * n + j < n * n)%nat.
Proof.
  intros n i j Hi Hj. assert (n <> 0)%nat by lia. repeat split.
  - rewrite Nat.div_add_l, Nat.div_small by lia. lia.
  - rewrite Nat.add_comm, Nat.mod_add, Nat.mod_small by lia. reflexivity.
  - nia.
Qed.
Lemma pairs_shape : forall x, same_shape (left_points x) (right_points x) = true.
Proof. intros x. unfold same_shape, left_points, right_points. cbn. rewrite !Nat.eqb_refl. reflexivity. Qed.

(** a kernel that is a function of the distance *)
Lemma on_distance_gives : forall g x M per box d,
  (exists D, distance (left_points x) (right_points x) M per box = Ok D /\ a_r D = (a_r x * a_r x)%nat /\
     forall k, (k < a_r x * a_r x)%nat -> a_m D k 0%nat = d (k / a_r x)%nat (k mod a_r x)%nat) ->
  gives (fun y z => on_distance g y z M per box) x (fun i j => g (d i j)).
Proof.
  intros g x M per box d (D & HD & Hr & E). unfold gives, kernel_matrix, on_distance. rewrite HD. cbn [bind].
  cbn [a_r a_c]. rewrite Hr, !Nat.eqb_refl. cbn [andb]. eexists. split; [reflexivity|].
  intros i j Hi Hj. cbn [a_m]. destruct (pair_index (a_r x) i j Hi Hj) as (P1 & P2 & P3).
  rewrite E by exact P3. rewrite P1, P2. reflexivity.
Qed.

(** ** The distance function *)
Lemma sq_pos : forall x, x <> 0 -> 0 < x ^ 2.
Proof. intros x H. rewrite <- Rsqr_pow2. apply Rsqr_pos_lt. exact H. Qed.
Lemma sqrt_sq_mul : forall m d, 0 <= m -> 0 <= d -> sqrt m * d = sqrt (m * d ^ 2).
Proof. intros m d Hm Hd. rewrite sqrt_mult by (auto; apply pow2_ge_0). rewrite sqrt_pow2 by auto. reflexivity. Qed.
Lemma abs_sq : forall a, Rabs a ^ 2 = a ^ 2.
Proof. intros a. rewrite <- !Rsqr_pow2. symmetry. apply Rsqr_abs. Qed.
Lemma diag_accepted : forall T, T 0%nat 1%nat = 0 -> T 1%nat 0%nat = 0 -> 0 <= T 0%nat 0%nat -> 0 <= T 1%nat 1%nat ->
  (eigvals_nonneg T && allclose_T T)%bool = true.
Proof.
  intros T H01 H10 H0 H1. apply andb_true_intro. split.
  - unfold eigvals_nonneg. rewrite H01, H10. set (a := T 0%nat 0%nat) in *. set (b := T 1%nat 1%nat) in *.
    replace ((a + b) * (a + b) - 4 * (a * b - 0 * 0)) with ((a - b)²) by (unfold Rsqr; ring).
    destruct (Rlt_dec _ 0) as [N|_]; [pose proof (Rle_0_sqr (a - b)); lra|].
    rewrite sqrt_Rsqr_abs. destruct (Rle_dec 0 _) as [|N]; [reflexivity|]. exfalso. apply N. unfold Rabs. destruct (Rcase_abs _); lra.
  - unfold allclose_T. cbn [forallb]. rewrite !H01, !H10, !Rminus_diag_eq, !Rabs_R0 by reflexivity.
    pose proof (Rabs_pos (T 0%nat 0%nat)). pose proof (Rabs_pos (T 1%nat 1%nat)).
    repeat (destruct (Rle_dec _ _) as [|N]; [|exfalso; apply N; lra]). reflexivity.
Qed.

Lemma distance_ok : forall x y M w box, same_shape x y = true -> planar x -> weights (a_c x) M w ->
  exists D, distance x y M false box = Ok D /\ a_r D = a_r x /\ a_c D = 1%nat /\
    forall i, (i < a_r x)%nat -> a_m D i 0%nat = euclid (a_c x) w (point x i) (point y i).
Proof.
  intros x y M w box Hs Hp Hw. unfold distance. rewrite Hs. destruct Hp as [E|E]; rewrite E in *; cbn [Nat.eqb bind].
  - destruct M as [|m|T].
    + eexists. split; [reflexivity|]. cbn [a_r a_c a_m]. repeat split. intros i Hi. unfold euclid. cbn [sum].
      cbn in Hw. rewrite (Hw 0%nat) by lia. unfold point. rewrite Rplus_0_l, Rmult_1_l, <- Rsqr_pow2. symmetry. apply sqrt_Rsqr_abs.
    + destruct Hw as (_ & Hm & Hw). destruct (Rle_dec 0 m) as [_|N]; [|lra].
      eexists. split; [reflexivity|]. cbn [a_r a_c a_m]. repeat split. intros i Hi. unfold euclid. cbn [sum].
      rewrite Hw, Rplus_0_l, sqrt_sq_mul by (auto; apply Rabs_pos). rewrite abs_sq. reflexivity.
    + destruct Hw as [Hw _]. discriminate.
  - destruct M as [|m|T].
    + eexists. split; [reflexivity|]. cbn [a_r a_c a_m]. repeat split. intros i Hi. unfold euclid. cbn [sum].
      cbn in Hw. rewrite (Hw 0%nat), (Hw 1%nat) by lia. rewrite !abs_sq. unfold point. f_equal. ring.
    + destruct Hw as [Hw _]. discriminate.
    + destruct Hw as (_ & H1 & H2 & H3 & H4 & H5 & H6 & H7 & H8). rewrite H1, H2. cbn [Nat.eqb andb].
      rewrite diag_accepted by (auto; lra). cbn.
      eexists. split; [reflexivity|]. cbn [a_r a_c a_m]. repeat split. intros i Hi. unfold euclid. cbn [sum].
      rewrite H3, H4, H7, H8. f_equal. unfold point.
      rewrite <- (abs_sq (a_m x i 0%nat - _)), <- (abs_sq (a_m x i 1%nat - _)). ring.
Qed.
Lemma distance_pairs : forall x M w box, planar x -> weights (a_c x) M w ->
  exists D, distance (left_points x) (right_points x) M false box = Ok D /\ a_r D = (a_r x * a_r x)%nat /\
     forall k, (k < a_r x * a_r x)%nat -> a_m D k 0%nat = euclid (a_c x) w (point x (k / a_r x)) (point x (k mod a_r x)).
Proof.
  intros x M w box Hp Hw.
  destruct (distance_ok (left_points x) (right_points x) M w box (pairs_shape x) Hp Hw) as (D & HD & Hr & _ & E).
  exists D. split; [exact HD|]. split; [exact Hr|]. intros k Hk. rewrite E by exact Hk. reflexivity.
Qed.
Lemma distance_periodic1 : forall x y M lo hi w, same_shape x y = true -> a_c x = 1%nat -> weights 1 M w ->
  exists D, distance x y M true (Some [lo; hi]) = Ok D /\ a_r D = a_r x /\ a_c D = 1%nat /\
    forall i, (i < a_r x)%nat -> a_m D i 0%nat = sqrt (w 0%nat) * arc (hi - lo) (point x i 0%nat) (point y i 0%nat).
Proof.
  intros x y M lo hi w Hs Hp Hw. unfold distance. rewrite Hs, Hp. cbn [Nat.eqb bind].
  destruct M as [|m|T].
  - eexists. split; [reflexivity|]. cbn [a_r a_c a_m]. repeat split. intros i Hi. cbn in Hw. rewrite (Hw 0%nat), sqrt_1, Rmult_1_l by lia. reflexivity.
  - destruct Hw as (_ & Hm & Hw). destruct (Rle_dec 0 m) as [_|N]; [|lra].
    eexists. split; [reflexivity|]. cbn [a_r a_c a_m]. repeat split. intros i Hi. rewrite Hw. reflexivity.
  - destruct Hw as [Hw _]. discriminate.
Qed.

(** ** The squared distances are conditionally negative definite *)
Lemma weights_nonneg : forall dim M w c, weights dim M w -> (c < dim)%nat -> (dim <= 2)%nat -> 0 <= w c.
Proof.
  intros dim M w c H Hc Hd. destruct M as [|m|T]; cbn in H.
  - rewrite H by auto. lra.
  - destruct H as (-> & Hm & E). assert (c = 0)%nat as -> by lia. lra.
  - destruct H as (-> & _ & _ & _ & _ & H0 & H1 & _). destruct c as [|[|c]]; auto; lia.
Qed.
Lemma cnd_sqdist : forall n dim (w : nat -> R) (p : nat -> nat -> R), (forall c, (c < dim)%nat -> 0 <= w c) ->
  cnd n (fun i j => sum dim (fun c => w c * (p i c - p j c) ^ 2)).
Proof.
  intros n dim w p Hw. apply (cnd_sum n dim (fun c i j => w c * (p i c - p j c) ^ 2)).
  intros c Hc. apply cnd_scal; [auto|]. apply (cnd_sq n (fun i => p i c)).
Qed.
Lemma sqdist_nonneg : forall dim (w p q : nat -> R), (forall c, (c < dim)%nat -> 0 <= w c) ->
  0 <= sum dim (fun c => w c * (p c - q c) ^ 2).
Proof. intros dim w p q Hw. apply sum_nonneg. intros c Hc. apply Rmult_le_pos; [auto|apply pow2_ge_0]. Qed.
Lemma euclid_sq : forall dim (w p q : nat -> R), (forall c, (c < dim)%nat -> 0 <= w c) ->
  euclid dim w p q ^ 2 = sum dim (fun c => w c * (p c - q c) ^ 2).
Proof. intros. unfold euclid. rewrite <- Rsqr_pow2. apply Rsqr_sqrt. apply sqdist_nonneg. auto. Qed.
Lemma planar_le : forall x, planar x -> (a_c x <= 2)%nat.
Proof. intros x [E|E]; lia. Qed.

Lemma pd_gaussian : forall n dim w p sgm l, (forall c, (c < dim)%nat -> 0 <= w c) -> l <> 0 ->
  pd n (fun i j => sgm ^ 2 * exp (- euclid dim w (p i) (p j) ^ 2 / (2 * l ^ 2))).
Proof.
  intros n dim w p sgm l Hw Hl. apply pd_scal; [apply pow2_ge_0|].
  apply (pd_ext n (fun i j => exp (- (/ (2 * l ^ 2) * sum dim (fun c => w c * (p i c - p j c) ^ 2))))).
  - intros i j _ _. rewrite <- (euclid_sq dim w (p i) (p j) Hw). f_equal. field. exact Hl.
  - apply cnd_exp. apply cnd_scal; [|apply cnd_sqdist; exact Hw].
    left. apply Rinv_0_lt_compat. pose proof (sq_pos l Hl). lra.
Qed.
Lemma cnd_euclid : forall n dim (w : nat -> R) (p : nat -> nat -> R), (forall c, (c < dim)%nat -> 0 <= w c) ->
  cnd n (fun i j => euclid dim w (p i) (p j)).
Proof.
  intros n dim w p Hw. apply (cnd_sqrt n (fun i j => sum dim (fun c => w c * (p i c - p j c) ^ 2))).
  - apply cnd_sqdist. exact Hw.
  - intros i j _ _. apply sqdist_nonneg. exact Hw.
Qed.
Lemma pd_exponential : forall n (d : mat) sgm l, cnd n d -> 0 < l ->
  pd n (fun i j => sgm ^ 2 * exp (- d i j / l)).
Proof.
  intros n d sgm l Hd Hl. apply pd_scal; [apply pow2_ge_0|].
  apply (pd_ext n (fun i j => exp (- (/ l * d i j)))).
  - intros i j _ _. f_equal. field. lra.
  - apply cnd_exp. apply cnd_scal; [left; apply Rinv_0_lt_compat; exact Hl|exact Hd].
Qed.
Lemma pd_rational : forall n dim w p a, (forall c, (c < dim)%nat -> 0 <= w c) -> 0 <= a ->
  pd n (fun i j => Rpower (1 / (1 + euclid dim w (p i) (p j) ^ 2)) a).
Proof.
  intros n dim w p a Hw Ha.
  apply (pd_ext n (fun i j => exp (- (a * ln (1 + sum dim (fun c => w c * (p i c - p j c) ^ 2)))))).
  - intros i j _ _. rewrite <- (euclid_sq dim w (p i) (p j) Hw). unfold Rpower. f_equal.
    unfold Rdiv. rewrite Rmult_1_l, ln_Rinv; [ring|]. pose proof (pow2_ge_0 (euclid dim w (p i) (p j))). lra.
  - apply cnd_exp. apply cnd_scal; [exact Ha|]. apply cnd_ln; [apply cnd_sqdist; exact Hw|].
    intros i j _ _. apply sqdist_nonneg. exact Hw.
Qed.
(** 1 where the distance is zero, 0 elsewhere *)
Lemma pd_same : forall n (d : mat), cnd n d -> (forall i j, (i < n)%nat -> (j < n)%nat -> 0 <= d i j) ->
  pd n (fun i j => if Req_EM_T (d i j) 0 then 1 else 0).
Proof.
  intros n d Hd Hp. apply (pd_seq n (fun m i j => exp (- (INR m * d i j)))).
  - intros m. apply cnd_exp. apply cnd_scal; [apply pos_INR|exact Hd].
  - intros i j Hi Hj eps He. specialize (Hp i j Hi Hj). destruct (Req_EM_T (d i j) 0) as [E|N].
    + exists O. intros m _. rewrite E, Rmult_0_r, Ropp_0, exp_0, Rminus_diag_eq, Rabs_R0 by reflexivity. lra.
    + assert (P : 0 < d i j) by lra.
      destruct (archimed_cor1 (eps * d i j) ltac:(apply Rmult_lt_0_compat; auto)) as (N0 & HN & HN0).
      exists N0. intros m Hm. rewrite Rminus_0_l, Rabs_Ropp, Rabs_pos_eq by (left; apply exp_pos).
      assert (Hm0 : 0 < INR N0) by (apply lt_0_INR; lia). assert (HmN : INR N0 <= INR m) by (apply le_INR; lia).
      rewrite exp_Ropp. pose proof (exp_ineq1_le (INR m * d i j)) as Q.
      assert (Q1 : 0 < INR m * d i j) by (apply Rmult_lt_0_compat; lra).
      apply Rle_trans with (/ (INR m * d i j)); [apply Rinv_le_contravar; lra|].
      assert (1 < eps * d i j * INR N0).
      { apply (Rmult_lt_compat_r (INR N0)) in HN; [|exact Hm0]. rewrite Rinv_l in HN by lra. exact HN. }
      apply (Rmult_le_reg_r (INR m * d i j)); [exact Q1|]. rewrite Rinv_l by lra.
      assert (eps * d i j * INR N0 <= eps * d i j * INR m) by (apply Rmult_le_compat_l; [left; apply Rmult_lt_0_compat; auto|exact HmN]). lra.
Qed.

(** ** Inner products *)
Lemma pd_tensor2 : forall n (T : mat) (p : nat -> nat -> R), symmetric 2 T -> semidefinite 2 T ->
  pd n (fun i j => sum 2 (fun c => p i c * sum 2 (fun d => T c d * p j d))).
Proof.
  intros n T p Hs Hp. set (a := T 0%nat 0%nat). set (b := T 0%nat 1%nat). set (c := T 1%nat 1%nat).
  assert (Eb : T 1%nat 0%nat = b) by (apply (Hs 0%nat 1%nat); lia).
  assert (Q : forall u v, 0 <= a * u ^ 2 + 2 * b * u * v + c * v ^ 2).
  { intros u v. pose proof (Hp (fun i => if (i =? 0)%nat then u else v)) as Q. unfold qf in Q. cbn [sum Nat.eqb] in Q.
    rewrite Eb in Q. fold a b c in Q. lra. }
  assert (Ha : 0 <= a) by (pose proof (Q 1 0); lra).
  destruct (Req_dec a 0) as [E|N].
  - assert (Hb : b = 0).
    { pose proof (Q (- b * (c + 1)) 1) as Q1. pose proof (Q (- b) 0). pose proof (Q 0 1) as Q2. rewrite E in Q1.
      destruct (Req_dec b 0) as [|N]; [assumption|]. exfalso. pose proof (sq_pos b N).
      pose proof (Q (- (c + 1) / b) 1) as Q3. rewrite E in Q3.
      replace (0 * (- (c + 1) / b) ^ 2 + 2 * b * (- (c + 1) / b) * 1 + c * 1 ^ 2) with (- c - 2) in Q3 by (field; exact N). lra. }
    apply (pd_ext n (fun i j => c * (p i 1%nat * p j 1%nat))).
    + intros i j _ _. cbn [sum]. rewrite Eb. fold a b c. rewrite E, Hb. ring.
    + apply pd_scal; [pose proof (Q 0 1); lra|]. apply (pd_rank1 n (fun i => p i 1%nat)).
  - apply (pd_ext n (fun i j => a * ((p i 0%nat + b / a * p i 1%nat) * (p j 0%nat + b / a * p j 1%nat)) + (c - b ^ 2 / a) * (p i 1%nat * p j 1%nat))).
    + intros i j _ _. cbn [sum]. rewrite Eb. fold a b c. field. exact N.
    + apply pd_add; apply pd_scal.
      * exact Ha.
      * apply (pd_rank1 n (fun i => p i 0%nat + b / a * p i 1%nat)).
      * pose proof (Q (- b / a) 1) as Q1.
        replace (a * (- b / a) ^ 2 + 2 * b * (- b / a) * 1 + c * 1 ^ 2) with (c - b ^ 2 / a) in Q1 by (field; exact N). exact Q1.
      * apply (pd_rank1 n (fun i => p i 1%nat)).
Qed.
Lemma bdim_same : forall a, bdim a a = Some a.
Proof. intros. unfold bdim. rewrite Nat.eqb_refl. reflexivity. Qed.
Lemma bidx_same : forall a i, bidx a a i = i.
Proof. intros. unfold bidx. rewrite Nat.eqb_refl. reflexivity. Qed.
Lemma mul_same : forall x y, a_r x = a_r y -> a_c x = a_c y ->
  exists z, np_mul x y = Ok z /\ a_r z = a_r x /\ a_c z = a_c x /\ forall i j, a_m z i j = a_m x i j * a_m y i j.
Proof.
  intros x y H1 H2. unfold np_mul, np_op. rewrite <- H1, <- H2, !bdim_same. eexists. split; [reflexivity|].
  cbn [a_r a_c a_m]. repeat split. intros i j. rewrite !bidx_same. reflexivity.
Qed.

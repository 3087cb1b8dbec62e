(** * C58: the covariance functions give covariance matrices;  C59: the distance *)
From Coq Require Import List Arith Reals Lia Lra Psatz.
From Verif Require Import Tree RMat Spd SpecSpd PdFacts CndFacts Gauss CovFun SpecCov CovFacts CovDist.
Import ListNotations.
Local Open Scope R_scope.

Lemma wn : forall x M w, planar x -> weights (a_c x) M w -> forall c, (c < a_c x)%nat -> 0 <= w c.
Proof. intros x M w Hp Hw c Hc. eapply weights_nonneg; eauto. apply planar_le, Hp. Qed.

(** ** C58 *)
Theorem C58_gaussian : forall sgm l M w box x, planar x -> weights (a_c x) M w -> l <> 0 ->
  gives (gaussian sgm l M false box) x
    (fun i j => sgm ^ 2 * exp (- euclid (a_c x) w (point x i) (point x j) ^ 2 / (2 * l ^ 2))) /\
  valid_kernel (gaussian sgm l M false box) x.
Proof.
  intros sgm l M w box x Hp Hw Hl.
  assert (G : gives (gaussian sgm l M false box) x
    (fun i j => sgm ^ 2 * exp (- euclid (a_c x) w (point x i) (point x j) ^ 2 / (2 * l ^ 2)))).
  { apply (on_distance_gives (fun d => sgm ^ 2 * exp (- d ^ 2 / (2 * l ^ 2))) x M false box
      (fun i j => euclid (a_c x) w (point x i) (point x j))). apply distance_pairs; auto. }
  split; [exact G|]. apply (gives_valid _ _ _ G). apply pd_gaussian; [eapply wn; eauto|exact Hl].
Qed.

Theorem C58_exponential : forall sgm l M w box x, planar x -> weights (a_c x) M w -> 0 < l ->
  gives (exponential sgm l M false box) x
    (fun i j => sgm ^ 2 * exp (- euclid (a_c x) w (point x i) (point x j) / l)) /\
  valid_kernel (exponential sgm l M false box) x.
Proof.
  intros sgm l M w box x Hp Hw Hl.
  assert (G : gives (exponential sgm l M false box) x
    (fun i j => sgm ^ 2 * exp (- euclid (a_c x) w (point x i) (point x j) / l))).
  { apply (on_distance_gives (fun d => sgm ^ 2 * exp (- d / l)) x M false box
      (fun i j => euclid (a_c x) w (point x i) (point x j))). apply distance_pairs; auto. }
  split; [exact G|]. apply (gives_valid _ _ _ G). apply pd_exponential; [|exact Hl].
  apply cnd_euclid. eapply wn; eauto.
Qed.

Theorem C58_exponential_circle : forall sgm l M w lo hi x, in_box1 lo hi x -> weights 1 M w -> 0 < l ->
  gives (exponential sgm l M true (Some [lo; hi])) x
    (fun i j => sgm ^ 2 * exp (- (sqrt (w 0%nat) * arc (hi - lo) (point x i 0%nat) (point x j 0%nat)) / l)) /\
  valid_kernel (exponential sgm l M true (Some [lo; hi])) x.
Proof.
  intros sgm l M w lo hi x [H1 Hx] Hw Hl.
  assert (G : gives (exponential sgm l M true (Some [lo; hi])) x
    (fun i j => sgm ^ 2 * exp (- (sqrt (w 0%nat) * arc (hi - lo) (point x i 0%nat) (point x j 0%nat)) / l))).
  { apply (on_distance_gives (fun d => sgm ^ 2 * exp (- d / l)) x M true (Some [lo; hi])
      (fun i j => sqrt (w 0%nat) * arc (hi - lo) (point x i 0%nat) (point x j 0%nat))).
    destruct (distance_periodic1 (left_points x) (right_points x) M lo hi w (pairs_shape x) H1 Hw) as (D & HD & Hr & _ & E).
    exists D. split; [exact HD|]. split; [exact Hr|]. intros k Hk. rewrite E by exact Hk. reflexivity. }
  split; [exact G|]. apply (gives_valid _ _ _ G).
  apply (pd_exponential (a_r x) (fun i j => sqrt (w 0%nat) * arc (hi - lo) (point x i 0%nat) (point x j 0%nat))); [|exact Hl].
  apply cnd_scal; [apply sqrt_pos|].
  apply (cnd_ext (a_r x) (fun i j => Rmin (Rabs ((point x i 0%nat - lo) - (point x j 0%nat - lo))) ((hi - lo) - Rabs ((point x i 0%nat - lo) - (point x j 0%nat - lo))))).
  - intros i j _ _. unfold arc. replace (point x i 0%nat - lo - (point x j 0%nat - lo)) with (point x i 0%nat - point x j 0%nat) by ring. reflexivity.
  - apply (cnd_circle (a_r x) (fun i => point x i 0%nat - lo) (hi - lo)). intros i Hi. specialize (Hx i Hi). lra.
Qed.

Theorem C58_rational : forall a M w box x, planar x -> weights (a_c x) M w -> 0 <= a ->
  gives (rational a M false box) x
    (fun i j => Rpower (1 / (1 + euclid (a_c x) w (point x i) (point x j) ^ 2)) a) /\
  valid_kernel (rational a M false box) x.
Proof.
  intros a M w box x Hp Hw Ha.
  assert (G : gives (rational a M false box) x
    (fun i j => Rpower (1 / (1 + euclid (a_c x) w (point x i) (point x j) ^ 2)) a)).
  { apply (on_distance_gives (fun d => Rpower (1 / (1 + d ^ 2)) a) x M false box
      (fun i j => euclid (a_c x) w (point x i) (point x j))). apply distance_pairs; auto. }
  split; [exact G|]. apply (gives_valid _ _ _ G). apply pd_rational; [eapply wn; eauto|exact Ha].
Qed.

Theorem C58_constant : forall sgm x, 0 <= sgm ->
  gives (constant sgm) x (fun _ _ => sgm) /\ valid_kernel (constant sgm) x.
Proof.
  intros sgm x Hs.
  assert (G : gives (constant sgm) x (fun _ _ => sgm)).
  { unfold gives, kernel_matrix, constant. rewrite pairs_shape. cbn. rewrite Nat.eqb_refl. cbn.
    eexists. split; [reflexivity|]. reflexivity. }
  split; [exact G|]. apply (gives_valid _ _ _ G). apply pd_const. exact Hs.
Qed.

Lemma linear_gives : forall k x f, (exists v, k (left_points x) (right_points x) = Ok v /\
   a_r v = (a_r x * a_r x)%nat /\ a_c v = 1%nat /\
   forall q, a_m v q 0%nat = f (q / a_r x)%nat (q mod a_r x)%nat) -> gives k x f.
Proof.
  intros k x f (v & Hv & Hr & Hc & E). unfold gives, kernel_matrix. rewrite Hv. cbn [bind]. rewrite Hr, Hc, !Nat.eqb_refl. cbn [andb].
  eexists. split; [reflexivity|]. intros i j Hi Hj. cbv beta. rewrite E. destruct (pair_index (a_r x) i j Hi Hj) as (-> & -> & _). reflexivity.
Qed.
Theorem C58_linear : forall sgm x, planar x ->
  gives (linear sgm NoM) x (fun i j => sgm ^ 2 + sum (a_c x) (fun c => point x i c * point x j c)) /\
  valid_kernel (linear sgm NoM) x.
Proof.
  intros sgm x Hp.
  assert (G : gives (linear sgm NoM) x (fun i j => sgm ^ 2 + sum (a_c x) (fun c => point x i c * point x j c))).
  { apply linear_gives. unfold linear. destruct (mul_same (left_points x) (right_points x) eq_refl eq_refl) as (z & Hz & Hr & Hc & Ez).
    cbn [left_points right_points a_r a_c] in Hr, Hc. change (a_c (left_points x)) with (a_c x).
    destruct Hp as [E|E]; rewrite E in *; cbn [Nat.eqb]; rewrite Hz; cbn [bind]; eexists; (split; [reflexivity|]).
    - unfold np_shift. cbn [a_r a_c a_m]. split; [exact Hr|]. split; [exact Hc|]. intros q. rewrite Ez. cbn [sum]. unfold point.
      cbn [left_points right_points a_m]. ring.
    - unfold np_shift, row_sum. cbn [a_r a_c a_m]. split; [exact Hr|]. split; [reflexivity|]. intros q. rewrite Hc. f_equal.
      apply sum_ext. intros c _. rewrite Ez. reflexivity. }
  split; [exact G|]. apply (gives_valid _ _ _ G).
  apply pd_add; [apply pd_const, pow2_ge_0|].
  apply (pd_ext (a_r x) (gram (map (fun c i => point x i c) (rev (seq 0 (a_c x)))))); [|apply pd_gram].
  intros i j _ _. generalize (a_c x). intros m. induction m as [|m IH]; [reflexivity|].
  rewrite seq_S, rev_app_distr. cbn [rev app map gram sum]. rewrite IH. cbn [Nat.add]. ring.
Qed.

Theorem C58_linear_tensor : forall sgm T x, a_c x = 2%nat -> a_r T = 2%nat -> a_c T = 2%nat ->
  symmetric 2 (a_m T) -> semidefinite 2 (a_m T) ->
  gives (linear sgm (Tensor T)) x
    (fun i j => sgm ^ 2 + sum 2 (fun c => point x i c * sum 2 (fun d => a_m T c d * point x j d))) /\
  valid_kernel (linear sgm (Tensor T)) x.
Proof.
  intros sgm T x H2 Tr Tc Ts Tp.
  assert (G : gives (linear sgm (Tensor T)) x
    (fun i j => sgm ^ 2 + sum 2 (fun c => point x i c * sum 2 (fun d => a_m T c d * point x j d)))).
  { apply linear_gives. unfold linear. change (a_c (left_points x)) with (a_c x). rewrite H2, Tr, Tc. cbn [Nat.eqb andb].
    unfold np_dot, np_T at 1. cbn [a_r a_c a_m right_points]. rewrite Tc, H2. cbn [Nat.eqb bind].
    match goal with |- context [np_mul ?a ?b] => destruct (mul_same a b) as (z & Hz & Hr & Hc & Ez) end.
    - reflexivity.
    - cbn. lia.
    - rewrite Hz. cbn [bind]. eexists. split; [reflexivity|]. unfold np_shift, row_sum. cbn [a_r a_c a_m].
      split; [rewrite Hr; reflexivity|]. split; [reflexivity|]. intros q. f_equal. rewrite Hc. cbn [left_points a_c]. rewrite H2.
      apply sum_ext. intros c _. rewrite Ez. reflexivity. }
  split; [exact G|]. apply (gives_valid _ _ _ G).
  apply pd_add; [apply pd_const, pow2_ge_0|]. apply (pd_tensor2 (a_r x) (a_m T) (point x)); auto.
Qed.

(** In one dimension with a coefficient M: the kernel is M x y, without sgm^2 *)
Theorem C58_linear_scalar_partial : forall sgm m x, a_c x = 1%nat -> 0 <= m ->
  gives (linear sgm (Scalar m)) x (fun i j => point x i 0%nat * m * point x j 0%nat) /\
  valid_kernel (linear sgm (Scalar m)) x.
Proof.
  intros sgm m x H1 Hm.
  assert (G : gives (linear sgm (Scalar m)) x (fun i j => point x i 0%nat * m * point x j 0%nat)).
  { apply linear_gives. unfold linear. change (a_c (left_points x)) with (a_c x). rewrite H1. cbn [Nat.eqb].
    match goal with |- context [np_mul ?a ?b] => destruct (mul_same a b) as (z & Hz & Hr & Hc & Ez) end.
    - reflexivity.
    - cbn. lia.
    - rewrite Hz. eexists. split; [reflexivity|]. split; [exact Hr|]. split; [rewrite Hc; reflexivity|]. intros q. rewrite Ez. reflexivity. }
  split; [exact G|]. apply (gives_valid _ _ _ G).
  apply (pd_ext (a_r x) (fun i j => m * (point x i 0%nat * point x j 0%nat))); [intros; ring|].
  apply pd_scal; [exact Hm|]. apply (pd_rank1 (a_r x) (fun i => point x i 0%nat)).
Qed.

(** Scaling by a mass matrix keeps a covariance matrix *)
Theorem C58_interpolation : forall k x M, valid_kernel k x ->
  exists C, interpolation_matrix k x M = Ok C /\ covariance_matrix (a_r x) C.
Proof.
  intros k x M (K & HK & Hs & Hp). unfold interpolation_matrix. rewrite HK. cbn [bind]. eexists. split; [reflexivity|]. split.
  - intros i j Hi Hj. unfold mtr, mmul.
    rewrite (sum_ext (a_r x) _ (fun l => sum (a_r x) (fun l' => M j l * K l l' * M i l'))) by (intros; rewrite <- sum_scal; apply sum_ext; intros; ring).
    rewrite (sum_ext (a_r x) (fun l => M i l * _) (fun l => sum (a_r x) (fun l' => M j l' * K l' l * M i l))).
    + apply sum_swap.
    + intros l Hl. rewrite <- sum_scal. apply sum_ext. intros l' Hl'. pose proof (Hs l l' Hl Hl') as Q. unfold mtr in Q. rewrite Q. ring.
  - intros v. rewrite qf_conj. apply Hp.
Qed.

(** ** Where the functions do not give covariance matrices *)
Definition rows (dim : nat) (l : list (list R)) : arr := mkarr (length l) dim (fun i c => nth c (nth i l []) 0).

Lemma q_bound : 1 - 2 * exp (- (1 / 2)) + exp (- 2) < 0.
Proof.
  set (q := exp (- (1 / 2))).
  assert (Q1 : 1 / 2 < q) by (pose proof (exp_ineq1 (- (1 / 2)) ltac:(lra)); unfold q; lra).
  assert (Q2 : q * q = exp (- 1)) by (unfold q; rewrite <- exp_plus; f_equal; lra).
  assert (Q4 : exp (- 2) = q * q * (q * q)) by (rewrite Q2, <- exp_plus; f_equal; lra).
  assert (Q3 : / 3 <= q * q).
  { rewrite Q2. replace (exp (- 1)) with (/ exp 1) by (rewrite <- exp_Ropp; f_equal; lra). apply Rinv_le_contravar; [apply exp_pos|apply exp_le_3]. }
  assert (Q5 : q < 1) by (rewrite <- exp_0; unfold q; apply exp_increasing; lra).
  rewrite Q4.
  assert (Q6 : 1 < q + q * q + q * (q * q)).
  { assert (1 / 2 * / 3 <= q * (q * q)) by (apply Rmult_le_compat; lra). lra. }
  replace (1 - 2 * q + q * q * (q * q)) with ((1 - q) * (1 - (q + q * q + q * (q * q)))) by ring.
  assert (0 < (1 - q) * (q + q * q + q * (q * q) - 1)) by (apply Rmult_lt_0_compat; lra). lra.
Qed.

Lemma arc_nat : forall w p q, arc w p q = if Rle_dec (Rabs (p - q)) (w - Rabs (p - q)) then Rabs (p - q) else w - Rabs (p - q).
Proof. reflexivity. Qed.

(** Four points on a circle of length 4: the Gaussian covariance with periodic=True is
    indefinite *)
Theorem C58_gaussian_circle_refuted :
  exists x K v, in_box1 0 4 x /\ kernel_matrix (gaussian 1 1 NoM true (Some [0; 4])) x = Ok K /\ qf (a_r x) K v < 0.
Proof.
  set (x := rows 1 [[0]; [1]; [2]; [3]]).
  assert (Hx : in_box1 0 4 x).
  { split; [reflexivity|]. intros [|[|[|[|i]]]] Hi; cbn in Hi; try lia; unfold point, x, rows; cbn [nth a_m]; lra. }
  destruct (on_distance_gives (fun d => 1 ^ 2 * exp (- d ^ 2 / (2 * 1 ^ 2))) x NoM true (Some [0; 4])
      (fun i j => arc 4 (point x i 0%nat) (point x j 0%nat))) as (K & HK & E).
  { destruct (distance_periodic1 (left_points x) (right_points x) NoM 0 4 (fun _ => 1) (pairs_shape x) eq_refl ltac:(cbn; auto)) as (D & HD & Hr & _ & E).
    exists D. split; [exact HD|]. split; [exact Hr|]. intros k Hk. rewrite E by exact Hk. rewrite sqrt_1, Rmult_1_l, Rminus_0_r. reflexivity. }
  exists x, K, (fun i => if Nat.even i then 1 else -1). split; [exact Hx|]. split; [exact HK|].
  set (q := exp (- (1 / 2))). set (r := exp (- 2)).
  assert (T : forall i j, (i < 4)%nat -> (j < 4)%nat -> K i j =
     nth ((4 + i - j) mod 4)%nat [1; q; r; q] 0).
  { intros i j Hi Hj. rewrite E by assumption. rewrite arc_nat.
    assert (A0 : 1 ^ 2 * exp (- 0 ^ 2 / (2 * 1 ^ 2)) = 1) by (replace (- 0 ^ 2 / (2 * 1 ^ 2)) with 0 by field; rewrite exp_0; ring).
    assert (A1 : 1 ^ 2 * exp (- 1 ^ 2 / (2 * 1 ^ 2)) = q) by (unfold q; replace (- 1 ^ 2 / (2 * 1 ^ 2)) with (- (1 / 2)) by field; ring).
    assert (A2 : 1 ^ 2 * exp (- 2 ^ 2 / (2 * 1 ^ 2)) = r) by (unfold r; replace (- 2 ^ 2 / (2 * 1 ^ 2)) with (- 2) by field; ring).
    destruct i as [|[|[|[|i]]]]; try lia; destruct j as [|[|[|[|j]]]]; try lia; unfold point, x, rows; cbn [nth a_m];
      destruct (Rle_dec _ _) as [L|L]; revert L; unfold Rabs; destruct (Rcase_abs _); intros L; try (exfalso; lra);
      match goal with |- 1 ^ 2 * exp (- ?d ^ 2 / _) = _ =>
        first [replace d with 0 by lra; exact A0 | replace d with 1 by lra; exact A1 | replace d with 2 by lra; exact A2] end. }
  change (a_r x) with 4%nat. unfold qf. cbn [sum]. rewrite !T by lia. cbn [Nat.add Nat.sub Nat.modulo Nat.divmod fst snd nth Nat.even].
  pose proof q_bound as B. fold q r in B. lra.
Qed.

(** M = [[1,1],[1,1]] is accepted, and the corners of a square give an indefinite matrix;
    M = [[1,-1],[-1,1]] is accepted, and the distance of (0,0) and (1,-1) is 0, not 2 *)
Definition ones (s : R) : arr := mkarr 2 2 (fun i j => if (i =? j)%nat then 1 else s).
Lemma ones_ok : forall s, s = 1 \/ s = -1 -> symmetric 2 (a_m (ones s)) /\ semidefinite 2 (a_m (ones s)) /\
  (eigvals_nonneg (a_m (ones s)) && allclose_T (a_m (ones s)))%bool = true.
Proof.
  intros s Hs. split; [|split].
  - intros [|[|i]] [|[|j]] Hi Hj; try lia; reflexivity.
  - intros v. unfold qf. cbn [sum ones a_m Nat.eqb]. destruct Hs as [->| ->].
    + pose proof (pow2_ge_0 (v 0%nat + v 1%nat)). lra.
    + pose proof (pow2_ge_0 (v 0%nat - v 1%nat)). lra.
  - assert (Ess : s * s = 1) by (destruct Hs as [->| ->]; lra). apply andb_true_intro. split.
    + unfold eigvals_nonneg. cbn [ones a_m Nat.eqb]. rewrite Ess.
      replace ((1 + 1) * (1 + 1) - 4 * (1 * 1 - 1)) with (2²) by (unfold Rsqr; ring).
      destruct (Rlt_dec _ 0) as [N|_]; [unfold Rsqr in N; lra|]. rewrite sqrt_Rsqr by lra.
      destruct (Rle_dec 0 _) as [_|N]; [reflexivity|lra].
    + unfold allclose_T. cbn [forallb ones a_m Nat.eqb].
      pose proof (Rabs_pos s). pose proof (Rabs_pos 1).
      repeat (destruct (Rle_dec _ _) as [_|N]; [|exfalso; apply N; rewrite Rminus_diag_eq, Rabs_R0 by reflexivity; lra]). reflexivity.
Qed.
Lemma ones_distance : forall s x y, s = 1 \/ s = -1 -> same_shape x y = true -> a_c x = 2%nat ->
  exists D, distance x y (Tensor (ones s)) false None = Ok D /\ a_r D = a_r x /\
    forall i, a_m D i 0%nat = sqrt ((Rabs (a_m x i 0%nat - a_m y i 0%nat) + s * Rabs (a_m x i 1%nat - a_m y i 1%nat)) ^ 2).
Proof.
  intros s x y Hs Hxy H2. unfold distance. rewrite Hxy, H2. cbn [Nat.eqb bind]. change (a_r (ones s)) with 2%nat. change (a_c (ones s)) with 2%nat.
  cbn [Nat.eqb andb]. destruct (ones_ok s Hs) as (_ & _ & ->). eexists. split; [reflexivity|]. cbn [a_r a_m]. split; [reflexivity|].
  intros i. cbn [ones a_m Nat.eqb]. f_equal. destruct Hs as [->| ->]; ring.
Qed.
Theorem C58_tensor_refuted :
  exists T x K v, a_r T = 2%nat /\ a_c T = 2%nat /\ symmetric 2 (a_m T) /\ semidefinite 2 (a_m T) /\ a_c x = 2%nat /\
    kernel_matrix (gaussian 1 1 (Tensor T) false None) x = Ok K /\ qf (a_r x) K v < 0.
Proof.
  set (x := rows 2 [[0;0]; [1;0]; [1;1]; [0;1]]).
  destruct (ones_ok 1 (or_introl eq_refl)) as (T1 & T2 & _).
  destruct (on_distance_gives (fun d => 1 ^ 2 * exp (- d ^ 2 / (2 * 1 ^ 2))) x (Tensor (ones 1)) false None
      (fun i j => sqrt ((Rabs (a_m x i 0%nat - a_m x j 0%nat) + 1 * Rabs (a_m x i 1%nat - a_m x j 1%nat)) ^ 2))) as (K & HK & E).
  { destruct (ones_distance 1 (left_points x) (right_points x) (or_introl eq_refl) (pairs_shape x) eq_refl) as (D & HD & Hr & E).
    exists D. split; [exact HD|]. split; [exact Hr|]. intros k _. apply E. }
  exists (ones 1), x, K, (fun i => if Nat.even i then 1 else -1). do 2 (split; [reflexivity|]). do 2 (split; [assumption|]).
  split; [reflexivity|]. split; [exact HK|].
  set (q := exp (- (1 / 2))). set (r := exp (- 2)).
  assert (T : forall i j, (i < 4)%nat -> (j < 4)%nat -> K i j =
     nth ((4 + i - j) mod 4)%nat [1; q; r; q] 0).
  { intros i j Hi Hj. rewrite E by assumption.
    assert (A0 : 1 ^ 2 * exp (- 0 ^ 2 / (2 * 1 ^ 2)) = 1) by (replace (- 0 ^ 2 / (2 * 1 ^ 2)) with 0 by field; rewrite exp_0; ring).
    assert (A1 : 1 ^ 2 * exp (- 1 ^ 2 / (2 * 1 ^ 2)) = q) by (unfold q; replace (- 1 ^ 2 / (2 * 1 ^ 2)) with (- (1 / 2)) by field; ring).
    assert (A2 : 1 ^ 2 * exp (- 2 ^ 2 / (2 * 1 ^ 2)) = r) by (unfold r; replace (- 2 ^ 2 / (2 * 1 ^ 2)) with (- 2) by field; ring).
    rewrite sqrt_pow2 by (match goal with |- 0 <= ?a + 1 * ?b => assert (0 <= a /\ 0 <= b) by (split; apply Rabs_pos); lra end).
    destruct i as [|[|[|[|i]]]]; try lia; destruct j as [|[|[|[|j]]]]; try lia; unfold x, rows; cbn [nth a_m];
      unfold Rabs; repeat destruct (Rcase_abs _); try (exfalso; lra);
      match goal with |- 1 ^ 2 * exp (- ?d ^ 2 / _) = _ =>
        first [replace d with 0 by lra; exact A0 | replace d with 1 by lra; exact A1 | replace d with 2 by lra; exact A2] end. }
  change (a_r x) with 4%nat. unfold qf. cbn [sum]. rewrite !T by lia. cbn [Nat.add Nat.sub Nat.modulo Nat.divmod fst snd nth Nat.even].
  pose proof q_bound as B. fold q r in B. lra.
Qed.

(** Eight points on a torus: the exponential covariance with periodic=True is indefinite *)
Lemma torus_value : forall l, l = / (7 * ln (100 / 99)) ->
  1 - exp (- 1 / l) + exp (- 2 / l) - 2 * exp (- sqrt 2 / l) + exp (- sqrt 5 / l) < 0.
Proof.
  intros l Hl. set (u := ln (100 / 99)) in *.
  assert (Hu : 0 < u) by (unfold u; rewrite <- ln_1; apply ln_increasing; lra).
  assert (El : forall a, a / l = a * (7 * u)) by (intros a; rewrite Hl; field; lra).
  assert (Et : exp (- u) = 99 / 100) by (unfold u; rewrite exp_Ropp, exp_ln by lra; field).
  assert (P : forall n, exp (INR n * - u) = (99 / 100) ^ n).
  { induction n as [|n IH]; [cbn; rewrite Rmult_0_l, exp_0; reflexivity|].
    rewrite S_INR. replace ((INR n + 1) * - u) with (- u + INR n * - u) by ring. rewrite exp_plus, IH, Et. reflexivity. }
  assert (S2 : sqrt 2 <= 10 / 7).
  { rewrite <- (sqrt_pow2 (10 / 7)) by lra. apply sqrt_le_1_alt. lra. }
  assert (S5 : 15 / 7 <= sqrt 5).
  { rewrite <- (sqrt_pow2 (15 / 7)) by lra. apply sqrt_le_1_alt. lra. }
  assert (M1 : exp (- 1 / l) = (99 / 100) ^ 7) by (rewrite El, <- P; f_equal; cbn; lra).
  assert (M2 : exp (- 2 / l) = (99 / 100) ^ 14) by (rewrite El, <- P; f_equal; cbn; lra).
  assert (L2 : (99 / 100) ^ 10 <= exp (- sqrt 2 / l)).
  { rewrite El, <- P. assert (Q : INR 10 * - u <= - sqrt 2 * (7 * u)) by (cbn [INR]; nra).
    destruct Q as [Q|Q]; [left; apply exp_increasing, Q|rewrite Q; lra]. }
  assert (L5 : exp (- sqrt 5 / l) <= (99 / 100) ^ 15).
  { rewrite El, <- P. assert (Q : - sqrt 5 * (7 * u) <= INR 15 * - u) by (cbn [INR]; nra).
    destruct Q as [Q|Q]; [left; apply exp_increasing, Q|rewrite Q; lra]. }
  rewrite M1, M2. lra.
Qed.
Theorem C58_exponential_torus_refuted :
  exists l x K v, 0 < l /\ in_box2 0 4 0 2 x /\
    kernel_matrix (exponential 1 l NoM true (Some [0; 4; 0; 2])) x = Ok K /\ qf (a_r x) K v < 0.
Proof.
  set (l := / (7 * ln (100 / 99))). pose proof (torus_value l eq_refl) as B.
  assert (Hl : 0 < l).
  { apply Rinv_0_lt_compat. assert (0 < ln (100 / 99)) by (rewrite <- ln_1; apply ln_increasing; lra). lra. }
  clearbody l.
  set (x := rows 2 [[0;0]; [0;1]; [1;0]; [1;1]; [2;0]; [2;1]; [3;0]; [3;1]]).
  assert (Hx : in_box2 0 4 0 2 x).
  { split; [reflexivity|]. intros i Hi. cbn in Hi. do 8 (destruct i as [|i]; [unfold point, x, rows; cbn [nth a_m]; lra|]). lia. }
  destruct (distance_coords (left_points x) (right_points x) NoM (fun _ => 1) true (Some [0; 4; 0; 2]) (Some (0, 4)) (Some (0, 2))
     (pairs_shape x) (or_intror eq_refl) ltac:(cbn; auto)) as (D & HD & Hr & _ & E).
  { right. split; [reflexivity|]. exists 0, 4, 0, 2. auto. }
  { intros k Hk. apply coord_pos; cbn; cbn in Hk.
    - assert (A : (k / 8 < 8)%nat) by (apply Nat.div_lt_upper_bound; lia). destruct Hx as [_ Hx]. apply (Hx (k / 8)%nat A).
    - assert (A : (k mod 8 < 8)%nat) by (apply Nat.mod_upper_bound; lia). destruct Hx as [_ Hx]. apply (Hx (k mod 8)%nat A). }
  destruct (on_distance_gives (fun d => 1 ^ 2 * exp (- d / l)) x NoM true (Some [0; 4; 0; 2])
     (fun i j => hyp 1 1 (coord (Some (0, 4)) (a_m x i 0%nat) (a_m x j 0%nat)) (coord (Some (0, 2)) (a_m x i 1%nat) (a_m x j 1%nat)))) as (K & HK & EK).
  { exists D. split; [exact HD|]. split; [exact Hr|]. intros k Hk. rewrite E by exact Hk. reflexivity. }
  exists l, x, K, (fun i => if Nat.even (i / 2) then 1 else -1). split; [exact Hl|]. split; [exact Hx|]. split; [exact HK|].
  set (e1 := exp (- 1 / l)) in *. set (e4 := exp (- 2 / l)) in *. set (e2 := exp (- sqrt 2 / l)) in *. set (e5 := exp (- sqrt 5 / l)) in *.
  assert (T : forall i j, (i < 8)%nat -> (j < 8)%nat -> K i j =
     nth ((8 + i / 2 * 2 - j / 2 * 2) mod 8 + (8 + i - j) mod 2)%nat [1; e1; e1; e2; e4; e5; e1; e2] 0).
  { intros i j Hi Hj. rewrite EK by assumption. rewrite !coord_wrap. unfold wrap.
    assert (A : forall a b d e, hyp 1 1 a b = sqrt d -> exp (- sqrt d / l) = e -> 1 ^ 2 * exp (- hyp 1 1 a b / l) = e)
      by (intros a b d e Ha He; rewrite Ha, He; ring).
    assert (H : forall a b d, a ^ 2 + b ^ 2 = d -> hyp 1 1 a b = sqrt d) by (intros a b d Hd; unfold hyp; f_equal; lra).
    assert (B0 : exp (- sqrt 0 / l) = 1) by (rewrite sqrt_0; replace (- 0 / l) with 0 by (unfold Rdiv; ring); apply exp_0).
    assert (B1 : exp (- sqrt 1 / l) = e1) by (rewrite sqrt_1; reflexivity).
    assert (B4 : exp (- sqrt 4 / l) = e4).
    { replace 4 with (2 ^ 2) by ring. rewrite sqrt_pow2 by lra. reflexivity. }
    assert (R1 : forall p q r, Rabs (p - q) = r -> forall w, Rmin (Rabs (p - q)) (w - Rabs (p - q)) = Rmin r (w - r)) by (intros p q r Hr' w; rewrite Hr'; reflexivity).
    assert (C0 : Rmin 0 (4 - 0 - 0) = 0) by (unfold Rmin; destruct (Rle_dec _ _); lra).
    assert (C1 : Rmin 1 (4 - 0 - 1) = 1) by (unfold Rmin; destruct (Rle_dec _ _); lra).
    assert (C2 : Rmin 2 (4 - 0 - 2) = 2) by (unfold Rmin; destruct (Rle_dec _ _); lra).
    assert (C3 : Rmin 3 (4 - 0 - 3) = 1) by (unfold Rmin; destruct (Rle_dec _ _); lra).
    assert (F0 : Rmin 0 (2 - 0 - 0) = 0) by (unfold Rmin; destruct (Rle_dec _ _); lra).
    assert (F1 : Rmin 1 (2 - 0 - 1) = 1) by (unfold Rmin; destruct (Rle_dec _ _); lra).
    assert (N : forall p q r, 0 <= r -> p - q = r -> Rabs (p - q) = r) by (intros p q r Hr' Hpq; rewrite Hpq; apply Rabs_pos_eq, Hr').
    assert (N' : forall p q r, 0 <= r -> q - p = r -> Rabs (p - q) = r) by (intros p q r Hr' Hpq; rewrite Rabs_minus_sym, Hpq; apply Rabs_pos_eq, Hr').
    do 8 (destruct i as [|i]; [do 8 (destruct j as [|j]; [
      unfold x, rows; cbn [nth a_m];
      repeat match goal with |- context [Rmin (Rabs (?p - ?q)) (?w - Rabs (?p - ?q))] =>
        first [ rewrite (R1 p q 0 ltac:(first [apply N; lra | apply N'; lra])) | rewrite (R1 p q 1 ltac:(first [apply N; lra | apply N'; lra]))
              | rewrite (R1 p q 2 ltac:(first [apply N; lra | apply N'; lra])) | rewrite (R1 p q 3 ltac:(first [apply N; lra | apply N'; lra]))] end;
      rewrite ?C0, ?C1, ?C2, ?C3, ?F0, ?F1;
      cbn [Nat.add Nat.sub Nat.mul Nat.div Nat.modulo Nat.divmod fst snd nth];
      first [ apply (A _ _ 0); [apply H; lra|exact B0] | apply (A _ _ 1); [apply H; lra|exact B1] | apply (A _ _ 4); [apply H; lra|exact B4]
            | apply (A _ _ 2); [apply H; lra|reflexivity] | apply (A _ _ 5); [apply H; lra|reflexivity] ] |]); lia|]). lia. }
  change (a_r x) with 8%nat. unfold qf. cbn [sum]. rewrite !T by lia.
  cbn [Nat.add Nat.sub Nat.mul Nat.div Nat.modulo Nat.divmod fst snd nth Nat.even]. lra.
Qed.

(** ** Matern with nu = 1/2 *)
(** the values of gamma(1/2) and of the modified Bessel function of order 1/2 *)
Definition half_ok (gamma : R -> R) (kv : R -> R -> R) : Prop :=
  gamma (1 / 2) = sqrt PI /\ forall z, 0 < z -> kv (1 / 2) z = sqrt (PI / (2 * z)) * exp (- z).
Lemma matern_half_value : forall gamma kv sgm l d, half_ok gamma kv -> 0 < l -> 0 < d ->
  sgm ^ 2 * Rpower 2 (1 - 1 / 2) / gamma (1 / 2) * Rpower (sqrt (2 * (1 / 2)) * d / l) (1 / 2) * kv (1 / 2) (sqrt (2 * (1 / 2)) * d / l)
  = sgm ^ 2 * exp (- d / l).
Proof.
  intros gamma kv sgm l d [Hg Hk] Hl Hd. pose proof PI_RGT_0 as Hpi.
  replace (2 * (1 / 2)) with 1 by field. rewrite sqrt_1, Rmult_1_l.
  assert (Hz : 0 < d / l) by (apply Rdiv_lt_0_compat; auto). rewrite Hg, Hk by exact Hz.
  replace (1 - 1 / 2) with (/ 2) by field. replace (1 / 2) with (/ 2) by field. rewrite !Rpower_sqrt by lra.
  replace (- (d / l)) with (- d / l) by (unfold Rdiv; ring). set (z := d / l) in *.
  assert (E : sqrt 2 * sqrt z * sqrt (PI / (2 * z)) = sqrt PI).
  { assert (0 < PI / (2 * z)) by (apply Rdiv_lt_0_compat; lra).
    rewrite <- (sqrt_mult 2 z), <- sqrt_mult; try lra. f_equal. field. lra. }
  assert (Hs : sqrt PI <> 0) by (apply Rgt_not_eq, sqrt_lt_R0; exact Hpi).
  replace (sgm ^ 2 * sqrt 2 / sqrt PI * sqrt z * (sqrt (PI / (2 * z)) * exp (- d / l)))
    with (sgm ^ 2 * exp (- d / l) * (sqrt 2 * sqrt z * sqrt (PI / (2 * z))) / sqrt PI) by (field; exact Hs).
  rewrite E. field. exact Hs.
Qed.
Lemma matern_gives : forall gamma kv sgm l M w box x, half_ok gamma kv -> planar x -> weights (a_c x) M w -> 0 < l ->
  gives (matern gamma kv sgm (1 / 2) l M false box) x
    (fun i j => let d := euclid (a_c x) w (point x i) (point x j) in
       if Req_EM_T d 0 then 1 else sgm ^ 2 * exp (- d / l)).
Proof.
  intros gamma kv sgm l M w box x Hk Hp Hw Hl.
  eapply gives_ext.
  - unfold matern. apply (on_distance_gives _ x M false box (fun i j => euclid (a_c x) w (point x i) (point x j))). apply distance_pairs; auto.
  - intros i j _ _. cbv beta zeta. destruct (Req_EM_T _ 0) as [_|N]; [reflexivity|].
    apply matern_half_value; auto. pose proof (sqrt_pos (sum (a_c x) (fun c => w c * (point x i c - point x j c) ^ 2))). unfold euclid in *. lra.
Qed.
(** For |sgm| <= 1 the values form a covariance matrix; at distance zero the value is 1,
    not sgm^2 *)
Theorem C58_matern_half_partial : forall gamma kv sgm l M w box x,
  half_ok gamma kv -> planar x -> weights (a_c x) M w -> 0 < l -> sgm ^ 2 <= 1 ->
  gives (matern gamma kv sgm (1 / 2) l M false box) x
    (fun i j => let d := euclid (a_c x) w (point x i) (point x j) in
       if Req_EM_T d 0 then 1 else sgm ^ 2 * exp (- d / l)) /\
  valid_kernel (matern gamma kv sgm (1 / 2) l M false box) x.
Proof.
  intros gamma kv sgm l M w box x Hk Hp Hw Hl Hs.
  pose proof (matern_gives gamma kv sgm l M w box x Hk Hp Hw Hl) as G. split; [exact G|]. apply (gives_valid _ _ _ G).
  assert (C : cnd (a_r x) (fun i j => euclid (a_c x) w (point x i) (point x j))) by (apply cnd_euclid; eapply wn; eauto).
  apply (pd_ext (a_r x) (fun i j => sgm ^ 2 * exp (- euclid (a_c x) w (point x i) (point x j) / l) +
     (1 - sgm ^ 2) * (if Req_EM_T (euclid (a_c x) w (point x i) (point x j)) 0 then 1 else 0))).
  - intros i j _ _. cbv beta zeta. destruct (Req_EM_T _ 0) as [E|N]; [|ring]. rewrite E.
    replace (- 0 / l) with 0 by (unfold Rdiv; ring). rewrite exp_0. ring.
  - apply pd_add; [apply pd_exponential; auto|]. apply pd_scal; [lra|]. apply pd_same; [exact C|]. intros i j _ _. apply sqrt_pos.
Qed.
Theorem C58_matern_refuted : forall gamma kv, half_ok gamma kv ->
  exists sgm l x K v, 0 < l /\ planar x /\
    kernel_matrix (matern gamma kv sgm (1 / 2) l NoM false None) x = Ok K /\ qf (a_r x) K v < 0 /\
    K 0%nat 0%nat <> sgm ^ 2.
Proof.
  intros gamma kv Hk. set (l := / ln 2). assert (H2 : 0 < ln 2) by (rewrite <- ln_1; apply ln_increasing; lra).
  assert (Hl : 0 < l) by (apply Rinv_0_lt_compat; exact H2).
  set (x := rows 1 [[0]; [1]]).
  destruct (matern_gives gamma kv 2 l NoM (fun _ => 1) None x Hk (or_introl eq_refl) ltac:(cbn; auto) Hl) as (K & HK & E).
  assert (E0 : forall i j, (i < 2)%nat -> (j < 2)%nat -> K i j = if (i =? j)%nat then 1 else 2).
  { intros i j Hi Hj. rewrite E by assumption. cbv zeta. unfold euclid. change (a_c x) with 1%nat. cbn [sum].
    replace (0 + 1 * (point x i 0%nat - point x j 0%nat) ^ 2) with ((point x i 0%nat - point x j 0%nat)²) by (unfold Rsqr; ring).
    rewrite sqrt_Rsqr_abs.
    assert (A : 2 ^ 2 * exp (- 1 / l) = 2).
    { replace (- 1 / l) with (- ln 2) by (unfold l; field; lra). rewrite exp_Ropp, exp_ln by lra. lra. }
    destruct i as [|[|i]]; try lia; destruct j as [|[|j]]; try lia; unfold point, x, rows; cbn [nth a_m Nat.eqb].
    - replace (0 - 0) with 0 by ring. rewrite Rabs_R0. destruct (Req_EM_T 0 0); [reflexivity|lra].
    - replace (0 - 1) with (-(1)) by ring. rewrite Rabs_Ropp, Rabs_R1. destruct (Req_EM_T 1 0); [lra|]. exact A.
    - replace (1 - 0) with 1 by ring. rewrite Rabs_R1. destruct (Req_EM_T 1 0); [lra|]. exact A.
    - replace (1 - 1) with 0 by ring. rewrite Rabs_R0. destruct (Req_EM_T 0 0); [reflexivity|lra]. }
  exists 2, l, x, K, (fun i => if (i =? 0)%nat then 1 else -1). split; [exact Hl|]. split; [left; reflexivity|]. split; [exact HK|].
  split; [|rewrite E0 by lia; cbn [Nat.eqb]; lra].
  change (a_r x) with 2%nat. unfold qf. cbn [sum]. rewrite !E0 by lia. cbn [Nat.eqb]. lra.
Qed.

(** With a coefficient M in one dimension, sgm^2 is missing from the linear covariance *)
Theorem C58_linear_refuted :
  exists sgm m x K, a_c x = 1%nat /\ 0 <= m /\ kernel_matrix (linear sgm (Scalar m)) x = Ok K /\
    K 0%nat 0%nat <> sgm ^ 2 + m * (point x 0 0%nat * point x 0 0%nat).
Proof.
  destruct (C58_linear_scalar_partial 1 1 (rows 1 [[0]]) eq_refl ltac:(lra)) as [(K & HK & E) _].
  exists 1, 1, (rows 1 [[0]]), K. split; [reflexivity|]. split; [lra|]. split; [exact HK|].
  rewrite E by (cbn; lia). unfold point, rows. cbn [nth a_m]. lra.
Qed.

(** ** C59: the distance *)
Theorem C59_euclid : forall x y M w box, same_shape x y = true -> planar x -> weights (a_c x) M w ->
  exists D, distance x y M false box = Ok D /\ a_r D = a_r x /\ a_c D = 1%nat /\
    forall i, (i < a_r x)%nat -> a_m D i 0%nat = euclid (a_c x) w (point x i) (point y i).
Proof. exact distance_ok. Qed.

Lemma same_shape_spec : forall x y, same_shape x y = true -> a_r x = a_r y /\ a_c x = a_c y.
Proof. intros x y H. unfold same_shape in H. apply andb_prop in H. destruct H as [H1 H2]. apply Nat.eqb_eq in H1, H2. auto. Qed.
Lemma same_shape_of : forall x y, a_r x = a_r y -> a_c x = a_c y -> same_shape x y = true.
Proof. intros x y H1 H2. unfold same_shape. rewrite H1, H2, !Nat.eqb_refl. reflexivity. Qed.
Lemma domain_sides : forall per box x, planar x -> in_domain per box x -> exists sx sy, sides per box (a_c x) sx sy /\
  forall y, a_r y = a_r x -> a_c y = a_c x -> in_domain per box y ->
    forall i, (i < a_r x)%nat -> inside sx (a_m y i 0%nat) /\ (a_c x = 2%nat -> inside sy (a_m y i 1%nat)).
Proof.
  intros per box x Hp Hd. destruct per.
  - cbn in Hd. destruct box as [[|a [|b [|c [|d [|e l]]]]]|]; try contradiction.
    + destruct Hd as [H1 H2]. exists (Some (a, b)), None. split.
      * left. split; [exact H1|]. exists a, b. auto.
      * intros y Hr Hc [_ Hy] i Hi. rewrite H1. split; [apply Hy; lia|discriminate].
    + destruct Hd as [H1 H2]. exists (Some (a, b)), (Some (c, d)). split.
      * right. split; [exact H1|]. exists a, b, c, d. auto.
      * intros y Hr Hc [_ Hy] i Hi. rewrite <- Hr in Hi. destruct (Hy i Hi) as [Y1 Y2]. split; [exact Y1|intros _; exact Y2].
  - exists None, None. split; [split; reflexivity|]. intros; split; [|intros _]; exact I.
Qed.

(** distances are at least 0, symmetric, 0 between equal points, and satisfy the triangle
    inequality; on a periodic domain for points inside the box *)
Theorem C59_pseudometric : forall M w periodic box x y z,
  same_shape x y = true -> same_shape y z = true -> planar x -> weights (a_c x) M w ->
  in_domain periodic box x -> in_domain periodic box y -> in_domain periodic box z ->
  exists xy yx yz xz xx,
    distance x y M periodic box = Ok xy /\ distance y x M periodic box = Ok yx /\
    distance y z M periodic box = Ok yz /\ distance x z M periodic box = Ok xz /\
    distance x x M periodic box = Ok xx /\
    forall i, (i < a_r x)%nat ->
      0 <= a_m xy i 0%nat /\ a_m yx i 0%nat = a_m xy i 0%nat /\ a_m xx i 0%nat = 0 /\
      a_m xz i 0%nat <= a_m xy i 0%nat + a_m yz i 0%nat.
Proof.
  intros M w per box x y z Hxy Hyz Hp Hw Dx Dy Dz.
  destruct (same_shape_spec _ _ Hxy) as [R1 C1]. destruct (same_shape_spec _ _ Hyz) as [R2 C2].
  destruct (domain_sides per box x Hp Dx) as (sx & sy & Hs & HI).
  assert (G : forall u v, a_r u = a_r x -> a_c u = a_c x -> a_r v = a_r x -> a_c v = a_c x ->
     in_domain per box u -> in_domain per box v ->
     exists D, distance u v M per box = Ok D /\ forall i, (i < a_r x)%nat -> a_m D i 0%nat =
       if (a_c x =? 1)%nat then hyp (w 0%nat) 0 (coord sx (a_m u i 0%nat) (a_m v i 0%nat)) 0
       else hyp (w 0%nat) (w 1%nat) (coord sx (a_m u i 0%nat) (a_m v i 0%nat)) (coord sy (a_m u i 1%nat) (a_m v i 1%nat))).
  { intros u v Ru Cu Rv Cv Du Dv.
    destruct (distance_coords u v M w per box sx sy) as (D & HD & _ & _ & E).
    - apply same_shape_of; congruence.
    - unfold planar in *. rewrite Cu. exact Hp.
    - rewrite Cu. exact Hw.
    - rewrite Cu. exact Hs.
    - intros i Hi. rewrite Ru in Hi. apply coord_pos; [apply (HI u)|apply (HI v)]; auto.
    - exists D. split; [exact HD|]. intros i Hi. rewrite E by lia. rewrite Cu. reflexivity. }
  assert (W : forall c, (c < a_c x)%nat -> 0 <= w c) by (eapply wn; eauto).
  destruct (G x y eq_refl eq_refl ltac:(congruence) ltac:(congruence) Dx Dy) as (xy & E1 & V1).
  destruct (G y x ltac:(congruence) ltac:(congruence) eq_refl eq_refl Dy Dx) as (yx & E2 & V2).
  destruct (G y z ltac:(congruence) ltac:(congruence) ltac:(congruence) ltac:(congruence) Dy Dz) as (yz & E3 & V3).
  destruct (G x z eq_refl eq_refl ltac:(congruence) ltac:(congruence) Dx Dz) as (xz & E4 & V4).
  destruct (G x x eq_refl eq_refl eq_refl eq_refl Dx Dx) as (xx & E5 & V5).
  exists xy, yx, yz, xz, xx. repeat (split; [assumption|]). intros i Hi.
  rewrite V1, V2, V3, V4, V5 by exact Hi.
  destruct (HI x eq_refl eq_refl Dx i Hi) as [X0 X1]. destruct (HI y ltac:(congruence) ltac:(congruence) Dy i Hi) as [Y0 Y1].
  destruct (HI z ltac:(congruence) ltac:(congruence) Dz i Hi) as [Z0 Z1].
  destruct Hp as [E|E]; rewrite E in *; cbn [Nat.eqb].
  - split; [apply hyp_pos|]. split; [rewrite coord_sym; reflexivity|]. split.
    + rewrite coord_same by exact X0. unfold hyp. replace (w 0%nat * 0 ^ 2 + 0 * 0 ^ 2) with 0 by ring. apply sqrt_0.
    + apply hyp_triangle; try lra; [apply W; lia|apply coord_pos; auto|apply coord_triangle; auto].
  - specialize (X1 eq_refl). specialize (Y1 eq_refl). specialize (Z1 eq_refl).
    split; [apply hyp_pos|]. split; [rewrite (coord_sym sx), (coord_sym sy); reflexivity|]. split.
    + rewrite !coord_same by assumption. unfold hyp. replace (w 0%nat * 0 ^ 2 + w 1%nat * 0 ^ 2) with 0 by ring. apply sqrt_0.
    + apply hyp_triangle; try (apply W; lia); try (apply coord_pos; auto); apply coord_triangle; auto.
Qed.

(** with positive weights, only equal points have distance zero (not periodic) *)
Theorem C59_separates : forall M w box x y, same_shape x y = true -> planar x -> weights (a_c x) M w ->
  (forall c, (c < a_c x)%nat -> 0 < w c) ->
  exists D, distance x y M false box = Ok D /\
    forall i, (i < a_r x)%nat -> a_m D i 0%nat = 0 -> forall c, (c < a_c x)%nat -> point x i c = point y i c.
Proof.
  intros M w box x y Hs Hp Hw Hpos. destruct (distance_ok x y M w box Hs Hp Hw) as (D & HD & _ & _ & E).
  exists D. split; [exact HD|]. intros i Hi Z c Hc. rewrite E in Z by exact Hi. unfold euclid in Z.
  apply sqrt_eq_0 in Z; [|apply sqdist_nonneg; eapply wn; eauto].
  destruct (Req_dec (point x i c) (point y i c)) as [|N]; [assumption|]. exfalso.
  assert (P : 0 < w c * (point x i c - point y i c) ^ 2) by (apply Rmult_lt_0_compat; [auto|apply sq_pos; lra]).
  assert (Q : forall k f, (forall c, (c < k)%nat -> 0 <= f c) -> (c < k)%nat -> 0 < f c -> 0 < sum k f).
  { induction k as [|k IH]; intros f Hf Hk Hfc; [lia|]. cbn [sum]. destruct (Nat.eq_dec c k) as [->|].
    - assert (0 <= sum k f) by (apply sum_nonneg; intros; apply Hf; lia). lra.
    - specialize (IH f ltac:(intros; apply Hf; lia) ltac:(lia) Hfc). specialize (Hf k ltac:(lia)). lra. }
  pose proof (Q (a_c x) (fun c => w c * (point x i c - point y i c) ^ 2)
    ltac:(intros; apply Rmult_le_pos; [left; auto|apply pow2_ge_0]) Hc P). lra.
Qed.

(** outside the box the "distance" may be negative *)
Theorem C59_outside_refuted :
  exists x y D, same_shape x y = true /\ distance x y NoM true (Some [0; 1]) = Ok D /\ a_m D 0%nat 0%nat < 0.
Proof.
  exists (rows 1 [[0]]), (rows 1 [[3]]).
  destruct (distance_periodic1 (rows 1 [[0]]) (rows 1 [[3]]) NoM 0 1 (fun _ => 1) eq_refl eq_refl ltac:(cbn; auto)) as (D & HD & _ & _ & E).
  exists D. split; [reflexivity|]. split; [exact HD|]. rewrite E by (cbn; lia). unfold arc, point, rows. cbn [nth a_m].
  rewrite sqrt_1. unfold Rmin. destruct (Rle_dec _ _) as [L|L]; revert L; unfold Rabs; destruct (Rcase_abs _); intros; lra.
Qed.

(** with a matrix M that is not diagonal, the result is not |x-y|_M *)
Theorem C59_tensor_refuted :
  exists T x y D, a_r T = 2%nat /\ a_c T = 2%nat /\ symmetric 2 (a_m T) /\ semidefinite 2 (a_m T) /\
    a_c x = 2%nat /\ same_shape x y = true /\ distance x y (Tensor T) false None = Ok D /\
    a_m D 0%nat 0%nat = 0 /\ tensor_norm (a_m T) (fun c => point x 0 c - point y 0 c) = 2.
Proof.
  destruct (ones_ok (-1) (or_intror eq_refl)) as (T1 & T2 & _).
  destruct (ones_distance (-1) (rows 2 [[0;0]]) (rows 2 [[1;-1]]) (or_intror eq_refl) eq_refl eq_refl) as (D & HD & _ & E).
  exists (ones (-1)), (rows 2 [[0;0]]), (rows 2 [[1;-1]]), D. do 2 (split; [reflexivity|]). do 2 (split; [assumption|]).
  do 2 (split; [reflexivity|]). split; [exact HD|]. split.
  - rewrite E. unfold rows. cbn [nth a_m].
    replace (0 - 1) with (-(1)) by ring. replace (0 - -1) with 1 by ring. rewrite Rabs_Ropp, Rabs_R1.
    replace ((1 + -1 * 1) ^ 2) with 0 by ring. apply sqrt_0.
  - unfold tensor_norm, qf. cbn [sum ones a_m Nat.eqb]. unfold point, rows. cbn [nth a_m].
    match goal with |- sqrt ?e = 2 => replace e with (2 ^ 2) by ring end. apply sqrt_pow2. lra.
Qed.

(** ** Examples: the hypotheses are met *)
Definition ex_points : arr := rows 2 [[0; 0]; [1; 0]; [1 / 2; 2]].
Definition ex_diag : arr := mkarr 2 2 (fun i j => if (i =? j)%nat then INR (S i) else 0).
Example ex_weights : weights (a_c ex_points) (Tensor ex_diag) (fun c => INR (S c)) /\ planar ex_points.
Proof. split; [|right; reflexivity]. cbn. repeat split; lra. Qed.
Example ex_gaussian : exists K, kernel_matrix (gaussian 2 1 (Tensor ex_diag) false None) ex_points = Ok K /\ K 0%nat 1%nat = 4 * exp (- (1 / 2)).
Proof.
  destruct ex_weights as [W P]. destruct (C58_gaussian 2 1 (Tensor ex_diag) _ None ex_points P W ltac:(lra)) as [(K & HK & E) _].
  exists K. split; [exact HK|]. rewrite E by (cbn; lia).
  rewrite euclid_sq by (intros [|[|c]] Hc; cbn in *; lra || lia). change (a_c ex_points) with 2%nat. cbn [sum].
  unfold point, ex_points, rows. cbn [nth a_m INR].
  replace (2 ^ 2) with 4 by ring. f_equal. f_equal. field.
Qed.
Example ex_circle : in_box1 0 4 (rows 1 [[0]; [1]; [3]]).
Proof. split; [reflexivity|]. intros [|[|[|i]]] Hi; cbn in Hi; try lia; unfold point, rows; cbn [nth a_m]; lra. Qed.
Example ex_half : exists gamma kv, half_ok gamma kv.
Proof. exists (fun _ => sqrt PI), (fun _ z => sqrt (PI / (2 * z)) * exp (- z)). split; auto. Qed.

Print Assumptions C58_gaussian.
Print Assumptions C58_exponential.
Print Assumptions C58_exponential_circle.
Print Assumptions C58_rational.
Print Assumptions C58_constant.
Print Assumptions C58_linear.
Print Assumptions C58_linear_tensor.
Print Assumptions C58_linear_scalar_partial.
Print Assumptions C58_interpolation.
Print Assumptions C58_matern_half_partial.
Print Assumptions C58_gaussian_circle_refuted.
Print Assumptions C58_tensor_refuted.
Print Assumptions C58_exponential_torus_refuted.
Print Assumptions C58_matern_refuted.
Print Assumptions C58_linear_refuted.
Print Assumptions C59_euclid.
Print Assumptions C59_pseudometric.
Print Assumptions C59_separates.
Print Assumptions C59_outside_refuted.
Print Assumptions C59_tensor_refuted.

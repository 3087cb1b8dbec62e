(** * Conditionally negative definite kernels on finitely many points

    [cnd n P]: u_i + u_j - P_ij is a limit of Gram matrices for some u.  Then exp(-tP) and
    1/(1+sP) are positive semidefinite (for P >= 0), and ln(1+P), sqrt P are again
    conditionally negative definite.  Used for the covariance functions of gmrf.py. *)
From Coq Require Import List Arith Reals Lia Lra Psatz.
From Verif Require Import RMat SpecSpd PdFacts.
Import ListNotations.
Local Open Scope R_scope.

Definition cnd (n : nat) (P : mat) : Prop := exists u, pd n (fun i j => u i + u j - P i j).

Lemma cnd_ext : forall n A B, (forall i j, (i < n)%nat -> (j < n)%nat -> A i j = B i j) -> cnd n A -> cnd n B.
Proof.
  intros n A B H [u Hu]. exists u. eapply pd_ext; [|exact Hu]. intros i j Hi Hj. cbv beta. rewrite H by auto. reflexivity.
Qed.
Lemma cnd_sym : forall n P, cnd n P -> forall i j, (i < n)%nat -> (j < n)%nat -> P i j = P j i.
Proof.
  intros n P [u Hu] i j Hi Hj. pose proof (pd_symmetric _ _ Hu i j Hi Hj) as Q. unfold mtr in Q. lra.
Qed.
Lemma cnd_canonical : forall n P o, (o < n)%nat -> cnd n P -> pd n (fun i j => P i o + P o j - P i j - P o o).
Proof.
  intros n P o Ho [u Hu]. eapply pd_ext; [|exact (pd_base n _ o Ho Hu)]. intros i j Hi Hj. cbv beta. ring.
Qed.
Lemma cnd_of_canonical : forall n P o, (o < n)%nat -> (forall i j, (i < n)%nat -> (j < n)%nat -> P i j = P j i) ->
  pd n (fun i j => P i o + P o j - P i j - P o o) -> cnd n P.
Proof.
  intros n P o Ho Hs H. exists (fun i => P i o - P o o / 2). eapply pd_ext; [|exact H].
  intros i j Hi Hj. cbv beta. rewrite (Hs o j) by auto. lra.
Qed.
Lemma cnd_add : forall n A B, cnd n A -> cnd n B -> cnd n (fun i j => A i j + B i j).
Proof.
  intros n A B [u Hu] [v Hv]. exists (fun i => u i + v i). eapply pd_ext; [|exact (pd_add n _ _ Hu Hv)].
  intros i j _ _. cbv beta. ring.
Qed.
Lemma cnd_scal : forall n c A, 0 <= c -> cnd n A -> cnd n (fun i j => c * A i j).
Proof.
  intros n c A Hc [u Hu]. exists (fun i => c * u i). eapply pd_ext; [|exact (pd_scal n c _ Hc Hu)].
  intros i j _ _. cbv beta. ring.
Qed.
Lemma cnd_minus : forall n c A, pd n A -> cnd n (fun i j => c - A i j).
Proof.
  intros n c A HA. exists (fun _ => c / 2). eapply pd_ext; [|exact HA]. intros i j _ _. cbv beta. lra.
Qed.
Lemma cnd_zero : forall n, cnd n (fun _ _ => 0).
Proof. intros n. exists (fun _ => 0). apply (pd_ext n (fun _ _ => 0)); [intros; lra|apply pd_const; lra]. Qed.
Lemma cnd_sum : forall n k (A : nat -> mat), (forall l, (l < k)%nat -> cnd n (A l)) -> cnd n (fun i j => sum k (fun l => A l i j)).
Proof.
  intros n k A H. induction k as [|k IH]; cbn; [apply cnd_zero|].
  apply cnd_add; [apply IH; intros; apply H; lia|apply H; lia].
Qed.
Lemma cnd_seq : forall n (B : nat -> mat) A, (forall m, cnd n (B m)) ->
  (forall i j, (i < n)%nat -> (j < n)%nat -> forall eps, 0 < eps ->
     exists N, forall m, (N <= m)%nat -> Rabs (A i j - B m i j) <= eps) -> cnd n A.
Proof.
  intros n B A HB H. destruct n as [|n].
  - exists (fun _ => 0). intros eps He. exists []. intros i j Hi. lia.
  - assert (Hsym : forall i j, (i < S n)%nat -> (j < S n)%nat -> A i j = A j i).
    { intros i j Hi Hj. destruct (Req_dec (A i j) (A j i)) as [E|N]; [exact E|]. exfalso.
      assert (P : 0 < Rabs (A i j - A j i)) by (apply Rabs_pos_lt; lra).
      destruct (H i j Hi Hj (Rabs (A i j - A j i) / 3) ltac:(lra)) as [N1 H1].
      destruct (H j i Hj Hi (Rabs (A i j - A j i) / 3) ltac:(lra)) as [N2 H2].
      specialize (H1 (Nat.max N1 N2) ltac:(lia)). specialize (H2 (Nat.max N1 N2) ltac:(lia)).
      rewrite (cnd_sym _ _ (HB (Nat.max N1 N2)) j i Hj Hi) in H2.
      revert P H1 H2. unfold Rabs. repeat destruct (Rcase_abs _); intros; lra. }
    apply (cnd_of_canonical (S n) A O); [lia|exact Hsym|].
    apply (pd_seq (S n) (fun m i j => B m i O + B m O j - B m i j - B m O O)).
    + intros m. apply cnd_canonical; [lia|apply HB].
    + intros i j Hi Hj eps He.
      destruct (H i O Hi ltac:(lia) (eps / 4) ltac:(lra)) as [N1 H1].
      destruct (H O j ltac:(lia) Hj (eps / 4) ltac:(lra)) as [N2 H2].
      destruct (H i j Hi Hj (eps / 4) ltac:(lra)) as [N3 H3].
      destruct (H O O ltac:(lia) ltac:(lia) (eps / 4) ltac:(lra)) as [N4 H4].
      exists (N1 + N2 + N3 + N4)%nat. intros m Hm.
      specialize (H1 m ltac:(lia)). specialize (H2 m ltac:(lia)). specialize (H3 m ltac:(lia)). specialize (H4 m ltac:(lia)).
      revert H1 H2 H3 H4. unfold Rabs. repeat destruct (Rcase_abs _); intros; lra.
Qed.

(** ** exp(-P) *)
Lemma cnd_exp : forall n P, cnd n P -> pd n (fun i j => exp (- P i j)).
Proof.
  intros n P [u Hu]. eapply pd_ext; [|exact (pd_diag n (fun i => exp (- u i)) _ (pd_exp n _ Hu))].
  intros i j _ _. cbv beta. rewrite <- !exp_plus. f_equal. ring.
Qed.

(** ** The geometric series: 1/(1-A) for entries below 1 *)
Lemma geo_sum : forall x k, x <> 1 -> sum_f_R0 (fun l => x ^ l) k = (1 - x ^ S k) / (1 - x).
Proof. intros x k H. apply tech3. exact H. Qed.
Lemma pd_geo : forall n A, pd n A -> (forall i j, (i < n)%nat -> (j < n)%nat -> 0 <= A i j < 1) ->
  pd n (fun i j => / (1 - A i j)).
Proof.
  intros n A HA HB. apply (pd_seq n (fun m i j => sum_f_R0 (fun k => A i j ^ k) m)).
  - intros m. apply (pd_sum n m (fun k i j => A i j ^ k)). intros k _. apply pd_pow, HA.
  - intros i j Hi Hj eps He. destruct (HB i j Hi Hj) as [H0 H1].
    destruct (pow_lt_1_zero (A i j) ltac:(rewrite Rabs_pos_eq; lra) (eps * (1 - A i j)) ltac:(apply Rmult_lt_0_compat; lra)) as [N HN].
    exists N. intros m Hm. rewrite geo_sum by lra.
    replace (/ (1 - A i j) - (1 - A i j ^ S m) / (1 - A i j)) with (A i j ^ S m * / (1 - A i j)) by (field; lra).
    specialize (HN (S m) ltac:(lia)). rewrite Rabs_mult, (Rabs_pos_eq (/ _)) by (left; apply Rinv_0_lt_compat; lra).
    apply (Rmult_le_reg_r (1 - A i j)); [lra|]. rewrite Rmult_assoc, Rinv_l by lra. lra.
Qed.

(** ** 1/P for positive P *)
Lemma cnd_inv : forall n P, cnd n P -> (forall i j, (i < n)%nat -> (j < n)%nat -> 0 < P i j) ->
  pd n (fun i j => / P i j).
Proof.
  intros n P HP Hpos.
  apply (pd_seq n (fun m i j => / INR (S m) * / (1 - exp (- (/ INR (S m) * P i j))))).
  - intros m. assert (Hm : 0 < / INR (S m)) by (apply Rinv_0_lt_compat, lt_0_INR; lia).
    apply pd_scal; [lra|]. apply pd_geo.
    + apply (cnd_exp n (fun i j => / INR (S m) * P i j)). apply cnd_scal; [lra|exact HP].
    + intros i j Hi Hj. split; [left; apply exp_pos|]. rewrite <- exp_0. apply exp_increasing.
      pose proof (Rmult_lt_0_compat _ _ Hm (Hpos i j Hi Hj)). lra.
  - intros i j Hi Hj eps He. destruct (archimed_cor1 eps He) as (N & HN & HN0).
    exists N. intros m Hm. specialize (Hpos i j Hi Hj). set (x := P i j) in *.
    assert (Hm0 : 0 < INR (S m)) by (apply lt_0_INR; lia).
    set (h := / INR (S m)). assert (Hh : 0 < h) by (apply Rinv_0_lt_compat; exact Hm0).
    assert (Hle : h <= eps).
    { apply Rle_trans with (/ INR N); [|lra]. apply Rinv_le_contravar; [apply lt_0_INR; lia|apply le_INR; lia]. }
    set (y := h * x). assert (Hy : 0 < y) by (apply Rmult_lt_0_compat; auto).
    assert (Q1 : 1 - exp (- y) <= y) by (pose proof (exp_ineq1_le (- y)); lra).
    assert (Q2 : y / (1 + y) <= 1 - exp (- y)).
    { rewrite exp_Ropp. pose proof (exp_ineq1_le y) as Q.
      assert (/ exp y <= / (1 + y)) by (apply Rinv_le_contravar; lra).
      replace (y / (1 + y)) with (1 - / (1 + y)) by (field; lra). lra. }
    assert (Q3 : 0 < y / (1 + y)) by (apply Rdiv_lt_0_compat; lra).
    assert (I1 : / y <= / (1 - exp (- y))) by (apply Rinv_le_contravar; lra).
    assert (I2 : / (1 - exp (- y)) <= / (y / (1 + y))) by (apply Rinv_le_contravar; lra).
    assert (E1 : h * / y = / x) by (unfold y; field; lra).
    assert (E2 : h * / (y / (1 + y)) = / x + h) by (unfold y; field; nra).
    assert (J1 : h * / y <= h * / (1 - exp (- y))) by (apply Rmult_le_compat_l; lra).
    assert (J2 : h * / (1 - exp (- y)) <= h * / (y / (1 + y))) by (apply Rmult_le_compat_l; lra).
    unfold Rabs. destruct (Rcase_abs _); lra.
Qed.

(** c P/(c+P), for c > 0 and P >= 0 *)
Lemma cnd_frac : forall n P c, 0 < c -> cnd n P -> (forall i j, (i < n)%nat -> (j < n)%nat -> 0 <= P i j) ->
  cnd n (fun i j => P i j / (c + P i j)).
Proof.
  intros n P c Hc HP Hpos.
  apply (cnd_ext n (fun i j => 1 - c * / (c + P i j))).
  - intros i j Hi Hj. specialize (Hpos i j Hi Hj). field. lra.
  - apply cnd_minus. apply pd_scal; [lra|]. apply cnd_inv.
    + apply (cnd_ext n (fun i j => c - 0 + P i j)); [intros; lra|].
      apply (cnd_add n (fun i j => c - 0)); [|exact HP]. apply (cnd_minus n c (fun _ _ => 0)). apply pd_const. lra.
    + intros i j Hi Hj. specialize (Hpos i j Hi Hj). lra.
Qed.

(** ** ln(1+P) *)
Lemma ln_quot : forall a b, 0 < a -> 0 < b -> ln (a / b) = ln a - ln b.
Proof. intros a b Ha Hb. unfold Rdiv. rewrite ln_mult, ln_Rinv by (auto; apply Rinv_0_lt_compat; auto). ring. Qed.
Lemma ln_step : forall d k, 0 <= d ->
  d / (1 + INR (S k) * d) <= ln (1 + INR (S k) * d) - ln (1 + INR k * d) <= d / (1 + INR k * d).
Proof.
  intros d k Hd. pose proof (pos_INR k) as Hk. rewrite S_INR.
  assert (P0 : 0 <= INR k * d) by (apply Rmult_le_pos; auto).
  assert (A : 0 < 1 + INR k * d) by lra. assert (B : 0 < 1 + (INR k + 1) * d) by lra.
  assert (L : forall z, 0 < z -> ln z <= z - 1).
  { intros z Hz. pose proof (exp_ineq1_le (ln z)) as Q. rewrite exp_ln in Q by exact Hz. lra. }
  rewrite <- ln_quot by lra. split.
  - assert (E : ln ((1 + (INR k + 1) * d) / (1 + INR k * d)) = - ln ((1 + INR k * d) / (1 + (INR k + 1) * d))).
    { rewrite <- ln_Rinv by (apply Rdiv_lt_0_compat; lra). f_equal. field. lra. }
    rewrite E. pose proof (L ((1 + INR k * d) / (1 + (INR k + 1) * d)) ltac:(apply Rdiv_lt_0_compat; lra)) as Q.
    replace (d / (1 + (INR k + 1) * d)) with (- ((1 + INR k * d) / (1 + (INR k + 1) * d) - 1)) by (field; lra). lra.
  - pose proof (L ((1 + (INR k + 1) * d) / (1 + INR k * d)) ltac:(apply Rdiv_lt_0_compat; lra)) as Q.
    replace (d / (1 + INR k * d)) with ((1 + (INR k + 1) * d) / (1 + INR k * d) - 1) by (field; lra). exact Q.
Qed.
Lemma ln_sums : forall d N, 0 <= d ->
  sum N (fun k => d / (1 + INR (S k) * d)) <= ln (1 + INR N * d) <= sum N (fun k => d / (1 + INR (S k) * d)) + d.
Proof.
  intros d N Hd.
  assert (G : sum N (fun k => d / (1 + INR (S k) * d)) <= ln (1 + INR N * d) /\
              ln (1 + INR N * d) <= sum N (fun k => d / (1 + INR (S k) * d)) + d - d / (1 + INR N * d)).
  { induction N as [|N IH].
    - cbn [sum]. replace (INR 0) with 0 by reflexivity. rewrite Rmult_0_l, Rplus_0_r, ln_1. split; [lra|]. unfold Rdiv. rewrite Rinv_1. lra.
    - cbn [sum]. pose proof (ln_step d N Hd). lra. }
  assert (0 <= d / (1 + INR N * d)).
  { apply Rmult_le_pos; [auto|]. left. apply Rinv_0_lt_compat. pose proof (Rmult_le_pos _ _ (pos_INR N) Hd). lra. }
  lra.
Qed.
Lemma cnd_ln : forall n P, cnd n P -> (forall i j, (i < n)%nat -> (j < n)%nat -> 0 <= P i j) ->
  cnd n (fun i j => ln (1 + P i j)).
Proof.
  intros n P HP Hpos.
  apply (cnd_seq n (fun m i j => sum (S m) (fun k => (/ INR (S m) * P i j) / (1 + INR (S k) * (/ INR (S m) * P i j))))).
  - intros m. apply (cnd_sum n (S m) (fun k i j => (/ INR (S m) * P i j) / (1 + INR (S k) * (/ INR (S m) * P i j)))).
    intros k _. assert (Hm : 0 < INR (S m)) by (apply lt_0_INR; lia). assert (Hk : 0 < INR (S k)) by (apply lt_0_INR; lia).
    apply (cnd_ext n (fun i j => / INR (S k) * (P i j / (INR (S m) / INR (S k) + P i j)))).
    + intros i j Hi Hj. specialize (Hpos i j Hi Hj). field.
      assert (0 <= INR (S k) * P i j) by (apply Rmult_le_pos; lra). repeat split; try lra.
      
    + apply cnd_scal; [left; apply Rinv_0_lt_compat; exact Hk|]. apply cnd_frac; auto. apply Rdiv_lt_0_compat; lra.
  - intros i j Hi Hj eps He. specialize (Hpos i j Hi Hj). set (x := P i j) in *.
    destruct (archimed_cor1 (eps / (x + 1)) ltac:(apply Rdiv_lt_0_compat; lra)) as (N & HN & HN0).
    exists N. intros m Hm. assert (Hm0 : 0 < INR (S m)) by (apply lt_0_INR; lia).
    set (h := / INR (S m)). assert (Hh : 0 < h) by (apply Rinv_0_lt_compat; exact Hm0).
    assert (Hle : h <= eps / (x + 1)).
    { apply Rle_trans with (/ INR N); [|lra]. apply Rinv_le_contravar; [apply lt_0_INR; lia|apply le_INR; lia]. }
    pose proof (ln_sums (h * x) (S m) ltac:(apply Rmult_le_pos; lra)) as Q.
    assert (E : INR (S m) * (h * x) = x) by (unfold h; field; lra). rewrite E in Q.
    assert (h * x <= eps).
    { apply Rle_trans with (eps / (x + 1) * x); [apply Rmult_le_compat_r; lra|].
      apply (Rmult_le_reg_r (x + 1)); [lra|]. unfold Rdiv.
      replace (eps * / (x + 1) * x * (x + 1)) with (eps * x * (/ (x + 1) * (x + 1))) by ring. rewrite Rinv_l by lra. nra. }
    unfold Rabs. destruct (Rcase_abs _); lra.
Qed.

(** ** sqrt P *)
Lemma atan_step : forall a b, 0 <= a -> a < b -> (b - a) / (1 + b ^ 2) <= atan b - atan a <= (b - a) / (1 + a ^ 2).
Proof.
  intros a b Ha Hab.
  destruct (MVT_cor2 atan (fun x => / (1 + x ^ 2)) a b Hab) as (c & Hc & Hc1).
  { intros x _. apply derivable_pt_lim_atan. }
  rewrite Hc. assert (0 < 1 + c ^ 2) by nra.
  split; [unfold Rdiv; rewrite (Rmult_comm (b - a))|unfold Rdiv; rewrite (Rmult_comm (b - a))];
    apply Rmult_le_compat_r; try lra; apply Rinv_le_contravar; nra.
Qed.

Lemma atan_sums : forall d N, 0 <= d ->
  sum N (fun k => d / (1 + (INR (S k) * d) ^ 2)) <= atan (INR N * d) <= sum N (fun k => d / (1 + (INR (S k) * d) ^ 2)) + d.
Proof.
  intros d N Hd. destruct (Req_dec d 0) as [->|Hd0].
  - rewrite Rmult_0_r, atan_0. rewrite (sum_zero N); [lra|]. intros; unfold Rdiv; ring.
  - assert (G : sum N (fun k => d / (1 + (INR (S k) * d) ^ 2)) <= atan (INR N * d) /\
              atan (INR N * d) <= sum N (fun k => d / (1 + (INR (S k) * d) ^ 2)) + d - d / (1 + (INR N * d) ^ 2)).
    { induction N as [|N IH].
      - cbn [sum]. replace (INR 0) with 0 by reflexivity. rewrite Rmult_0_l, atan_0. split; [lra|].
        replace (d / (1 + 0 ^ 2)) with d by field. lra.
      - cbn [sum]. pose proof (pos_INR N) as HN.
        assert (Q : INR N * d < INR (S N) * d) by (rewrite S_INR; nra).
        pose proof (atan_step (INR N * d) (INR (S N) * d) ltac:(apply Rmult_le_pos; auto) Q) as W.
        replace (INR (S N) * d - INR N * d) with d in W by (rewrite S_INR; ring). lra. }
    assert (0 <= d / (1 + (INR N * d) ^ 2)).
    { apply Rmult_le_pos; [auto|]. left. apply Rinv_0_lt_compat. nra. }
    lra.
Qed.
Lemma atan_tail : forall x, 0 < x -> PI / 2 - / x <= atan x <= PI / 2.
Proof.
  intros x Hx. pose proof (atan_inv x Hx) as E.
  assert (I : 0 < / x) by (apply Rinv_0_lt_compat; exact Hx).
  pose proof (atan_step 0 (/ x) ltac:(lra) I) as Q. rewrite atan_0 in Q.
  assert (0 <= (/ x - 0) / (1 + (/ x) ^ 2)) by (apply Rmult_le_pos; [lra|left; apply Rinv_0_lt_compat; nra]).
  replace ((/ x - 0) / (1 + 0 ^ 2)) with (/ x) in Q by (field; lra). lra.
Qed.
Lemma sqrt_sums : forall p h K, 0 <= p -> 0 < h -> (0 < K)%nat ->
  Rabs (PI / 2 * sqrt p - sum K (fun k => h * (p / ((INR (S k) * h) ^ 2 + p)))) <= h + p / (INR K * h).
Proof.
  intros p h K Hp Hh HK. assert (HK0 : 0 < INR K) by (apply lt_0_INR; exact HK).
  assert (HKh : 0 < INR K * h) by (apply Rmult_lt_0_compat; auto).
  destruct (Req_dec p 0) as [->|Hp0].
  - rewrite sqrt_0. rewrite (sum_zero K).
    + rewrite Rmult_0_r, Rminus_0_r, Rabs_R0. unfold Rdiv. lra.
    + intros k Hk. unfold Rdiv. ring.
  - set (r := sqrt p). assert (Hr : 0 < r) by (apply sqrt_lt_R0; lra).
    assert (Er : r * r = p) by (apply sqrt_sqrt; lra).
    set (d := h / r). assert (Hd : 0 < d) by (apply Rdiv_lt_0_compat; auto).
    assert (E : sum K (fun k => h * (p / ((INR (S k) * h) ^ 2 + p))) = r * sum K (fun k => d / (1 + (INR (S k) * d) ^ 2))).
    { rewrite <- sum_scal. apply sum_ext. intros k Hk. unfold d. rewrite <- Er.
      assert (0 < r * r) by nra. pose proof (pow2_ge_0 (INR (S k) * h)). field. split; [lra|nra]. }
    rewrite E. pose proof (atan_sums d K ltac:(lra)) as Q.
    pose proof (atan_tail (INR K * d) ltac:(apply Rmult_lt_0_compat; auto)) as T.
    clear E. set (s := sum K _) in *.
    assert (A1 : r * d = h) by (unfold d; field; lra).
    assert (A2 : r * / (INR K * d) = p / (INR K * h)) by (unfold d; rewrite <- Er; field; repeat split; apply Rgt_not_eq; auto).
    assert (LA : r * s <= r * (PI / 2)) by (apply Rmult_le_compat_l; lra).
    assert (LB : r * (PI / 2 - / (INR K * d)) <= r * (s + d)) by (apply Rmult_le_compat_l; lra).
    assert (0 <= p / (INR K * h)) by (apply Rmult_le_pos; [lra|left; apply Rinv_0_lt_compat; lra]).
    unfold Rabs. destruct (Rcase_abs _); nra.
Qed.
Lemma cnd_sqrt : forall n P, cnd n P -> (forall i j, (i < n)%nat -> (j < n)%nat -> 0 <= P i j) ->
  cnd n (fun i j => sqrt (P i j)).
Proof.
  intros n P HP Hpos. pose proof PI_RGT_0 as Hpi.
  apply (cnd_ext n (fun i j => / (PI / 2) * (PI / 2 * sqrt (P i j)))).
  { intros i j _ _. field. lra. }
  apply cnd_scal; [left; apply Rinv_0_lt_compat; lra|].
  apply (cnd_seq n (fun m i j => sum (S m * S m) (fun k => / INR (S m) * (P i j / ((INR (S k) * / INR (S m)) ^ 2 + P i j))))).
  - intros m. assert (Hm : 0 < / INR (S m)) by (apply Rinv_0_lt_compat, lt_0_INR; lia).
    apply (cnd_sum n (S m * S m) (fun k i j => / INR (S m) * (P i j / ((INR (S k) * / INR (S m)) ^ 2 + P i j)))).
    intros k _. assert (Hk : 0 < INR (S k)) by (apply lt_0_INR; lia).
    apply cnd_scal; [lra|]. apply cnd_frac; auto. apply pow_lt. apply Rmult_lt_0_compat; lra.
  - intros i j Hi Hj eps He. specialize (Hpos i j Hi Hj). set (x := P i j) in *.
    destruct (archimed_cor1 (eps / (x + 1)) ltac:(apply Rdiv_lt_0_compat; lra)) as (N & HN & HN0).
    exists N. intros m Hm. assert (Hm0 : 0 < INR (S m)) by (apply lt_0_INR; lia).
    set (h := / INR (S m)). assert (Hh : 0 < h) by (apply Rinv_0_lt_compat; exact Hm0).
    assert (Hle : h <= eps / (x + 1)).
    { apply Rle_trans with (/ INR N); [|lra]. apply Rinv_le_contravar; [apply lt_0_INR; lia|apply le_INR; lia]. }
    eapply Rle_trans; [apply sqrt_sums; auto; lia|].
    assert (E : x / (INR (S m * S m) * h) = h * x) by (rewrite mult_INR; unfold h; field; lra). rewrite E.
    apply Rle_trans with (eps / (x + 1) * (x + 1)); [|unfold Rdiv; rewrite Rmult_assoc, Rinv_l by lra; lra].
    replace (h + h * x) with (h * (x + 1)) by ring. apply Rmult_le_compat_r; lra.
Qed.

(** ** Squared differences, absolute differences and arcs of a circle *)
Lemma cnd_sq : forall n (x : nat -> R), cnd n (fun i j => (x i - x j) ^ 2).
Proof.
  intros n x. exists (fun i => x i ^ 2).
  apply (pd_ext n (fun i j => 2 * (x i * x j))); [intros; ring|]. apply pd_scal; [lra|apply pd_rank1].
Qed.
Lemma cnd_abs : forall n (x : nat -> R), cnd n (fun i j => Rabs (x i - x j)).
Proof.
  intros n x. apply (cnd_ext n (fun i j => sqrt ((x i - x j) ^ 2))).
  - intros i j _ _. rewrite <- Rsqr_pow2. apply sqrt_Rsqr_abs.
  - apply cnd_sqrt; [apply cnd_sq|]. intros; apply pow2_ge_0.
Qed.
(** the kernel h/2 - |x-y| on an interval of length h *)
Lemma pd_reflect : forall n A o, (o <= n)%nat -> pd (S n) A ->
  pd n (fun i j => 4 * A i j - 2 * A i o - 2 * A o j + A o o).
Proof.
  intros n A o Ho HA eps He. destruct (HA (eps / 9) ltac:(lra)) as [l Hl].
  exists (map (fun w i => 2 * w i - w o) l). intros i j Hi Hj.
  assert (E : forall l, gram (map (fun w i => 2 * w i - w o) l) i j = 4 * gram l i j - 2 * gram l i o - 2 * gram l o j + gram l o o).
  { induction l0 as [|w l0 IH]; cbn; [ring|]. rewrite IH. ring. }
  rewrite E. pose proof (Hl i j ltac:(lia) ltac:(lia)) as Q1. pose proof (Hl i o ltac:(lia) ltac:(lia)) as Q2.
  pose proof (Hl o j ltac:(lia) ltac:(lia)) as Q3. pose proof (Hl o o ltac:(lia) ltac:(lia)) as Q4.
  revert Q1 Q2 Q3 Q4. unfold Rabs. repeat destruct (Rcase_abs _); intros; lra.
Qed.
Lemma pd_interval : forall n (x : nat -> R) h, (forall i, (i < n)%nat -> 0 <= x i <= h) ->
  pd n (fun i j => h / 2 - Rabs (x i - x j)).
Proof.
  intros n x h Hx.
  destruct n as [|n']; [intros eps _; exists []; intros; lia|]. set (n := S n') in *.
  assert (Hh : 0 <= h) by (destruct (Hx O ltac:(unfold n; lia)); lra).
  (* points 0..n-1, then h, then 0 *)
  set (y := fun i => if lt_dec i n then x i else if Nat.eq_dec i n then h else 0).
  assert (Y0 : forall i, (i < n)%nat -> y i = x i) by (intros i Hi; unfold y; destruct (lt_dec i n); [reflexivity|lia]).
  assert (Y1 : y n = h) by (unfold y; destruct (lt_dec n n); [lia|]; destruct (Nat.eq_dec n n); [reflexivity|lia]).
  assert (Y2 : y (S n) = 0) by (unfold y; destruct (lt_dec (S n) n); [lia|]; destruct (Nat.eq_dec (S n) n); [lia|reflexivity]).
  pose proof (cnd_canonical (S (S n)) _ (S n) ltac:(lia) (cnd_abs (S (S n)) y)) as C.
  assert (C1 : pd (S n) (fun i j => Rabs (y i - y (S n)) + Rabs (y (S n) - y j) - Rabs (y i - y j) - Rabs (y (S n) - y (S n)))).
  { intros eps He. destruct (C eps He) as [l Hl]. exists l. intros i j Hi Hj. apply Hl; lia. }
  pose proof (pd_reflect n _ n ltac:(lia) C1) as C2.
  apply (pd_ext n (fun i j => / 4 * (4 * (Rabs (y i - y (S n)) + Rabs (y (S n) - y j) - Rabs (y i - y j) - Rabs (y (S n) - y (S n))) -
     2 * (Rabs (y i - y (S n)) + Rabs (y (S n) - y n) - Rabs (y i - y n) - Rabs (y (S n) - y (S n))) -
     2 * (Rabs (y n - y (S n)) + Rabs (y (S n) - y j) - Rabs (y n - y j) - Rabs (y (S n) - y (S n))) +
     (Rabs (y n - y (S n)) + Rabs (y (S n) - y n) - Rabs (y n - y n) - Rabs (y (S n) - y (S n)))))).
  - intros i j Hi Hj. rewrite (Y0 i Hi), (Y0 j Hj), Y1, Y2. pose proof (Hx i Hi). pose proof (Hx j Hj).
    generalize (Rabs (x i - x j)). intros a. unfold Rabs. repeat destruct (Rcase_abs _); lra.
  - apply pd_scal; [lra|]. exact C2.
Qed.
(** arcs of a circle of circumference w *)
Lemma cnd_circle : forall n (x : nat -> R) w, (forall i, (i < n)%nat -> 0 <= x i <= w) ->
  cnd n (fun i j => Rmin (Rabs (x i - x j)) (w - Rabs (x i - x j))).
Proof.
  intros n x w Hx.
  set (s := fun i => if Rlt_dec (x i) (w / 2) then 1 else -1).
  set (z := fun i => if Rlt_dec (x i) (w / 2) then x i else x i - w / 2).
  assert (Hz : forall i, (i < n)%nat -> 0 <= z i <= w / 2).
  { intros i Hi. specialize (Hx i Hi). unfold z. destruct (Rlt_dec (x i) (w / 2)); lra. }
  apply (cnd_ext n (fun i j => w / 4 - s i * s j * (w / 2 / 2 - Rabs (z i - z j)))).
  - intros i j Hi Hj. pose proof (Hx i Hi). pose proof (Hx j Hj). unfold s, z, Rmin.
    destruct (Rlt_dec (x i) (w / 2)), (Rlt_dec (x j) (w / 2)), (Rle_dec _ _) as [Q|Q];
      revert Q; unfold Rabs; repeat destruct (Rcase_abs _); intros; try lra.
  - apply cnd_minus. apply pd_diag. apply pd_interval. exact Hz.
Qed.

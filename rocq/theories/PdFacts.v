(** * Positive semidefinite kernels on finitely many points: limits of Gram matrices

    [pd n A]: on the indices below n, A is a limit of Gram matrices.  Closed under sums,
    products (Schur), limits and exp.  [cnd n P]: u_i + u_j - P is pd for some u
    (conditionally negative definite); then exp(-tP), 1/(1+sP) are pd and ln(1+P),
    sqrt P are cnd. *)
From Coq Require Import List Arith Reals Lia Lra Psatz.
From Verif Require Import RMat SpecSpd.
Import ListNotations.
Local Open Scope R_scope.

Fixpoint gram (l : list (nat -> R)) (i j : nat) : R :=
  match l with [] => 0 | w :: l' => w i * w j + gram l' i j end.
Definition pd (n : nat) (A : mat) : Prop :=
  forall eps, 0 < eps -> exists l, forall i j, (i < n)%nat -> (j < n)%nat -> Rabs (A i j - gram l i j) <= eps.

Lemma gram_app : forall l m i j, gram (l ++ m) i j = gram l i j + gram m i j.
Proof. induction l as [|w l IH]; intros m i j; cbn; [lra|]. rewrite IH. lra. Qed.
Lemma gram_sym : forall l i j, gram l i j = gram l j i.
Proof. induction l as [|w l IH]; intros i j; cbn; [reflexivity|]. rewrite (IH i j). ring. Qed.
Lemma gram_scal : forall c l i j, 0 <= c -> gram (map (fun w i => sqrt c * w i) l) i j = c * gram l i j.
Proof.
  intros c l i j Hc. induction l as [|w l IH]; cbn; [ring|]. rewrite IH.
  replace (sqrt c * w i * (sqrt c * w j)) with (sqrt c * sqrt c * (w i * w j)) by ring. rewrite sqrt_sqrt by auto. ring.
Qed.
Definition lprod (l m : list (nat -> R)) : list (nat -> R) :=
  flat_map (fun w => map (fun v i => w i * v i) m) l.
Lemma gram_row : forall w m i j, gram (map (fun v i => w i * v i) m) i j = w i * w j * gram m i j.
Proof. intros w m i j. induction m as [|v m IH]; cbn; [ring|]. rewrite IH. ring. Qed.
Lemma gram_prod : forall l m i j, gram (lprod l m) i j = gram l i j * gram m i j.
Proof.
  induction l as [|w l IH]; intros m i j; [cbn; ring|]. unfold lprod in *. cbn [flat_map].
  rewrite gram_app, gram_row, IH. cbn. ring.
Qed.
Lemma gram_nonneg : forall l n x, 0 <= qf n (gram l) x.
Proof.
  induction l as [|w l IH]; intros n x.
  - unfold qf. cbn [gram]. apply Req_le. symmetry. apply sum_zero. intros i Hi.
    rewrite (sum_zero n); [ring|]. intros; ring.
  - assert (E : qf n (gram (w :: l)) x = (sum n (fun i => x i * w i)) * (sum n (fun i => x i * w i)) + qf n (gram l) x).
    { change (gram (w :: l)) with (madd (fun i j => w i * w j) (gram l)). rewrite qf_add. f_equal.
      unfold qf. rewrite <- sum_scal_r. apply sum_ext. intros i Hi. rewrite <- !sum_scal. apply sum_ext. intros; ring. }
    rewrite E. pose proof (Rle_0_sqr (sum n (fun i => x i * w i))) as Q. unfold Rsqr in Q. pose proof (IH n x). lra.
Qed.

(** ** Uniform bounds on finitely many indices *)
Lemma all_small : forall n (P : nat -> nat -> nat -> Prop),
  (forall i j, (i < n)%nat -> (j < n)%nat -> exists N, forall m, (N <= m)%nat -> P i j m) ->
  exists N, forall i j m, (i < n)%nat -> (j < n)%nat -> (N <= m)%nat -> P i j m.
Proof.
  intros n P H.
  assert (G : forall a b, (a <= n)%nat -> (b <= n)%nat ->
     exists N, forall i j m, (i < a)%nat -> (j < b)%nat -> (N <= m)%nat -> P i j m).
  { assert (G1 : forall i b, (i < n)%nat -> (b <= n)%nat ->
       exists N, forall j m, (j < b)%nat -> (N <= m)%nat -> P i j m).
    { intros i b Hi. induction b as [|b IH]; intros Hb; [exists O; lia|].
      destruct (IH ltac:(lia)) as [N1 H1]. destruct (H i b Hi ltac:(lia)) as [N2 H2].
      exists (Nat.max N1 N2). intros j m Hj Hm. destruct (Nat.eq_dec j b) as [->|]; [apply H2; lia|apply H1; lia]. }
    induction a as [|a IH]; intros b Ha Hb; [exists O; lia|].
    destruct (IH b ltac:(lia) Hb) as [N1 H1]. destruct (G1 a b ltac:(lia) Hb) as [N2 H2].
    exists (Nat.max N1 N2). intros i j m Hi Hj Hm. destruct (Nat.eq_dec i a) as [->|]; [apply H2; lia|apply H1; lia]. }
  apply G; lia.
Qed.
Lemma bounded : forall n (A : mat), exists m, 0 < m /\ forall i j, (i < n)%nat -> (j < n)%nat -> Rabs (A i j) <= m.
Proof.
  intros n A. exists (1 + sum n (fun i => sum n (fun j => Rabs (A i j)))). split.
  - assert (0 <= sum n (fun i => sum n (fun j => Rabs (A i j)))); [|lra].
    apply sum_nonneg. intros. apply sum_nonneg. intros. apply Rabs_pos.
  - assert (S1 : forall k f i, (forall i, (i < k)%nat -> 0 <= f i) -> (i < k)%nat -> f i <= sum k f).
    { induction k as [|k IH]; intros f i Hf Hi; [lia|]. cbn. destruct (Nat.eq_dec i k) as [->|].
      - assert (0 <= sum k f) by (apply sum_nonneg; intros; apply Hf; lia). lra.
      - pose proof (IH f i ltac:(intros; apply Hf; lia) ltac:(lia)). pose proof (Hf k ltac:(lia)). lra. }
    intros i j Hi Hj.
    pose proof (S1 n (fun j => Rabs (A i j)) j ltac:(intros; apply Rabs_pos) Hj) as Q1.
    pose proof (S1 n (fun i => sum n (fun j => Rabs (A i j))) i ltac:(intros; apply sum_nonneg; intros; apply Rabs_pos) Hi) as Q2.
    cbn beta in *. lra.
Qed.

(** ** Closure properties *)
Lemma pd_ext : forall n A B, (forall i j, (i < n)%nat -> (j < n)%nat -> A i j = B i j) -> pd n A -> pd n B.
Proof.
  intros n A B H HA eps He. destruct (HA eps He) as [l Hl]. exists l. intros i j Hi Hj. rewrite <- H by auto. auto.
Qed.
Lemma pd_gram : forall n l, pd n (gram l).
Proof. intros n l eps He. exists l. intros i j _ _. rewrite Rminus_diag_eq, Rabs_R0 by reflexivity. lra. Qed.
Lemma pd_rank1 : forall n u, pd n (fun i j => u i * u j).
Proof. intros n u. apply (pd_ext n (gram [u])); [|apply pd_gram]. intros. cbn. ring. Qed.
Lemma pd_const : forall n c, 0 <= c -> pd n (fun _ _ => c).
Proof.
  intros n c Hc. apply (pd_ext n (fun i j => (fun _ => sqrt c) i * (fun _ => sqrt c) j)); [|apply pd_rank1].
  intros. apply sqrt_sqrt. auto.
Qed.
Lemma pd_limit : forall n A, (forall eps, 0 < eps -> exists B, pd n B /\
    forall i j, (i < n)%nat -> (j < n)%nat -> Rabs (A i j - B i j) <= eps) -> pd n A.
Proof.
  intros n A H eps He. destruct (H (eps / 2) ltac:(lra)) as (B & HB & AB).
  destruct (HB (eps / 2) ltac:(lra)) as [l Hl]. exists l. intros i j Hi Hj.
  replace (A i j - gram l i j) with ((A i j - B i j) + (B i j - gram l i j)) by ring.
  eapply Rle_trans; [apply Rabs_triang|]. specialize (AB i j Hi Hj). specialize (Hl i j Hi Hj). lra.
Qed.
(** pointwise convergence *)
Lemma pd_seq : forall n (B : nat -> mat) A, (forall m, pd n (B m)) ->
  (forall i j, (i < n)%nat -> (j < n)%nat -> forall eps, 0 < eps ->
     exists N, forall m, (N <= m)%nat -> Rabs (A i j - B m i j) <= eps) -> pd n A.
Proof.
  intros n B A HB H. apply pd_limit. intros eps He.
  destruct (all_small n (fun i j m => Rabs (A i j - B m i j) <= eps)) as [N HN].
  - intros i j Hi Hj. apply H; auto.
  - exists (B N). split; [apply HB|]. intros i j Hi Hj. apply HN; auto.
Qed.
Lemma pd_add : forall n A B, pd n A -> pd n B -> pd n (fun i j => A i j + B i j).
Proof.
  intros n A B HA HB eps He. destruct (HA (eps / 2) ltac:(lra)) as [l Hl]. destruct (HB (eps / 2) ltac:(lra)) as [m Hm].
  exists (l ++ m). intros i j Hi Hj. rewrite gram_app.
  replace (A i j + B i j - (gram l i j + gram m i j)) with ((A i j - gram l i j) + (B i j - gram m i j)) by ring.
  eapply Rle_trans; [apply Rabs_triang|]. specialize (Hl i j Hi Hj). specialize (Hm i j Hi Hj). lra.
Qed.
Lemma pd_scal : forall n c A, 0 <= c -> pd n A -> pd n (fun i j => c * A i j).
Proof.
  intros n c A Hc HA eps He. destruct (HA (eps / (c + 1))) as [l Hl]; [apply Rdiv_lt_0_compat; lra|].
  exists (map (fun w i => sqrt c * w i) l). intros i j Hi Hj. rewrite gram_scal by auto.
  replace (c * A i j - c * gram l i j) with (c * (A i j - gram l i j)) by ring.
  rewrite Rabs_mult, (Rabs_pos_eq c) by auto. specialize (Hl i j Hi Hj).
  apply Rle_trans with (c * (eps / (c + 1))); [apply Rmult_le_compat_l; auto|].
  apply (Rmult_le_reg_r (c + 1)); [lra|]. unfold Rdiv.
  replace (c * (eps * / (c + 1)) * (c + 1)) with (c * eps * (/ (c + 1) * (c + 1))) by ring.
  rewrite Rinv_l by lra. nra.
Qed.
Lemma pd_mul : forall n A B, pd n A -> pd n B -> pd n (fun i j => A i j * B i j).
Proof.
  intros n A B HA HB eps He. destruct (bounded n A) as (a & Ha & Ba). destruct (bounded n B) as (b & Hb & Bb).
  set (d := Rmin 1 (eps / (a + b + 1))).
  assert (Hd : 0 < d /\ d <= 1 /\ d * (a + b + 1) <= eps).
  { unfold d. split; [apply Rmin_glb_lt; [lra|apply Rdiv_lt_0_compat; lra]|]. split; [apply Rmin_l|].
    apply Rle_trans with (eps / (a + b + 1) * (a + b + 1)).
    - apply Rmult_le_compat_r; [lra|apply Rmin_r].
    - unfold Rdiv. rewrite Rmult_assoc, Rinv_l by lra. lra. }
  destruct (HA d ltac:(lra)) as [l Hl]. destruct (HB d ltac:(lra)) as [m Hm].
  exists (lprod l m). intros i j Hi Hj. rewrite gram_prod.
  specialize (Hl i j Hi Hj). specialize (Hm i j Hi Hj). specialize (Ba i j Hi Hj). specialize (Bb i j Hi Hj).
  replace (A i j * B i j - gram l i j * gram m i j) with (A i j * (B i j - gram m i j) + gram m i j * (A i j - gram l i j)) by ring.
  eapply Rle_trans; [apply Rabs_triang|]. rewrite !Rabs_mult.
  assert (G : Rabs (gram m i j) <= b + 1).
  { replace (gram m i j) with (B i j - (B i j - gram m i j)) by ring.
    eapply Rle_trans; [apply Rabs_triang|]. rewrite Rabs_Ropp. lra. }
  pose proof (Rabs_pos (A i j)). pose proof (Rabs_pos (gram m i j)).
  pose proof (Rabs_pos (B i j - gram m i j)). pose proof (Rabs_pos (A i j - gram l i j)).
  apply Rle_trans with (a * d + (b + 1) * d); [|nra].
  apply Rplus_le_compat; apply Rmult_le_compat; lra.
Qed.
Lemma pd_pow : forall n A k, pd n A -> pd n (fun i j => A i j ^ k).
Proof.
  intros n A k HA. induction k as [|k IH]; cbn; [apply pd_const; lra|]. apply pd_mul; auto.
Qed.
Lemma pd_sum : forall n k (A : nat -> mat), (forall l, (l <= k)%nat -> pd n (A l)) -> pd n (fun i j => sum_f_R0 (fun l => A l i j) k).
Proof.
  intros n k A H. induction k as [|k IH]; cbn; [apply H; lia|]. apply pd_add; [apply IH; intros; apply H; lia|apply H; lia].
Qed.
Lemma pd_exp : forall n A, pd n A -> pd n (fun i j => exp (A i j)).
Proof.
  intros n A HA. apply (pd_seq n (fun m i j => sum_f_R0 (fun k => / INR (fact k) * A i j ^ k) m)).
  - intros m. apply pd_sum. intros k _. apply pd_scal; [|apply pd_pow; auto].
    left. apply Rinv_0_lt_compat, INR_fact_lt_0.
  - intros i j Hi Hj eps He. unfold exp. destruct (exist_exp (A i j)) as [x Hx]. cbn.
    destruct (Hx eps He) as [N HN]. exists N. intros m Hm. specialize (HN m Hm). unfold R_dist in HN.
    rewrite Rabs_minus_sym. left. exact HN.
Qed.
(** congruence with a diagonal matrix *)
Lemma pd_diag : forall n u A, pd n A -> pd n (fun i j => u i * u j * A i j).
Proof. intros n u A HA. apply pd_mul; auto. apply pd_rank1. Qed.
(** subtracting row and column o *)
Lemma pd_base : forall n A o, (o < n)%nat -> pd n A -> pd n (fun i j => A i j - A i o - A o j + A o o).
Proof.
  intros n A o Ho HA eps He. destruct (HA (eps / 4) ltac:(lra)) as [l Hl].
  exists (map (fun w i => w i - w o) l). intros i j Hi Hj.
  assert (E : forall l, gram (map (fun w i => w i - w o) l) i j = gram l i j - gram l i o - gram l o j + gram l o o).
  { induction l0 as [|w l0 IH]; cbn; [ring|]. rewrite IH. ring. }
  rewrite E. pose proof (Hl i j Hi Hj) as Q1. pose proof (Hl i o Hi Ho) as Q2. pose proof (Hl o j Ho Hj) as Q3. pose proof (Hl o o Ho Ho) as Q4.
  revert Q1 Q2 Q3 Q4. unfold Rabs. repeat destruct (Rcase_abs _); intros; lra.
Qed.

(** ** What it means *)
Lemma pd_symmetric : forall n A, pd n A -> symmetric n A.
Proof.
  intros n A H i j Hi Hj. unfold mtr.
  destruct (Req_dec (A j i) (A i j)) as [E|N]; [exact E|]. exfalso.
  assert (P : 0 < Rabs (A j i - A i j)) by (apply Rabs_pos_lt; lra).
  destruct (H (Rabs (A j i - A i j) / 3) ltac:(lra)) as [l Hl].
  pose proof (Hl i j Hi Hj) as Q1. pose proof (Hl j i Hj Hi) as Q2. rewrite (gram_sym l j i) in Q2.
  revert P Q1 Q2. unfold Rabs. repeat destruct (Rcase_abs _); intros; lra.
Qed.
Lemma sum_abs : forall n f, Rabs (sum n f) <= sum n (fun i => Rabs (f i)).
Proof.
  induction n as [|n IH]; intros f; cbn; [rewrite Rabs_R0; lra|].
  eapply Rle_trans; [apply Rabs_triang|]. specialize (IH f). lra.
Qed.
Lemma pd_semidefinite : forall n A, pd n A -> semidefinite n A.
Proof.
  intros n A H x. destruct (Rle_lt_dec 0 (qf n A x)) as [|N]; [assumption|]. exfalso.
  set (s := sum n (fun i => Rabs (x i))).
  assert (Hs : 0 <= s) by (apply sum_nonneg; intros; apply Rabs_pos).
  destruct (H (- qf n A x / 2 / (s * s + 1))) as [l Hl].
  { apply Rdiv_lt_0_compat; [lra|nra]. }
  set (eps := - qf n A x / 2 / (s * s + 1)) in *.
  assert (E : qf n A x = qf n (gram l) x + qf n (fun i j => A i j - gram l i j) x).
  { rewrite <- (qf_add n (gram l) (fun i j => A i j - gram l i j)). apply qf_ext. intros i j _ _. unfold madd. ring. }
  assert (B : Rabs (qf n (fun i j => A i j - gram l i j) x) <= eps * (s * s)).
  { unfold qf. eapply Rle_trans; [apply sum_abs|].
    apply Rle_trans with (sum n (fun i => Rabs (x i) * (eps * s))).
    - apply sum_le. intros i Hi. rewrite Rabs_mult. apply Rmult_le_compat_l; [apply Rabs_pos|].
      eapply Rle_trans; [apply sum_abs|]. unfold s. rewrite <- sum_scal. apply sum_le. intros j Hj.
      rewrite Rabs_mult. apply Rmult_le_compat_r; [apply Rabs_pos|]. apply Hl; auto.
    - rewrite sum_scal_r. fold s. apply Req_le. ring. }
  pose proof (gram_nonneg l n x) as G.
  assert (Q : eps * (s * s + 1) = - qf n A x / 2).
  { unfold eps. field. nra. }
  assert (0 < eps) by (unfold eps; apply Rdiv_lt_0_compat; [lra|nra]).
  assert (- (eps * (s * s)) <= qf n (fun i j => A i j - gram l i j) x).
  { revert B. unfold Rabs. destruct (Rcase_abs _); intros; nra. }
  nra.
Qed.

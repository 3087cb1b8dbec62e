(** * The Gauss rules integrate polynomials exactly *)
From Coq Require Import List Reals Lra Lia Arith Psatz.
From Verif Require Import Tree Quadrature SpecQuadrature QuadratureFacts.
Import ListNotations.
Open Scope R_scope.

(** Powers of p + q s with s^2 = c *)
Fixpoint spow (c p q : R) (j : nat) : R * R :=
  match j with
  | O => (1, 0)
  | S k => let '(u, v) := spow c p q k in (p * u + q * v * c, p * v + q * u)
  end.
Lemma spow_ok : forall c p q s, s * s = c -> forall j,
  (p + q * s) ^ j = fst (spow c p q j) + snd (spow c p q j) * s /\ (p - q * s) ^ j = fst (spow c p q j) - snd (spow c p q j) * s.
Proof.
  intros c p q s E. induction j as [|j [I1 I2]].
  - cbn [pow spow fst snd]. split; ring.
  - cbn [pow spow]. destruct (spow c p q j) as [u v]. cbn [fst snd] in *. rewrite I1, I2, <- E. split; ring.
Qed.
Lemma even_pow : forall x j, x ^ (2 * j) = (x * x) ^ j.
Proof. intros. rewrite pow_mult. f_equal. ring. Qed.
(** The even moments of two pairs of nodes with conjugate weights *)
Lemma conjugate : forall c p q w v s a b, s * s = c -> a * a = p + q * s -> b * b = p - q * s -> forall j,
  (w + v * s) * a ^ (2 * j) + (w - v * s) * b ^ (2 * j) = 2 * (w * fst (spow c p q j) + v * snd (spow c p q j) * c).
Proof.
  intros c p q w v s a b Es Ea Eb j. rewrite !even_pow, Ea, Eb. destruct (spow_ok c p q s Es j) as [-> ->]. rewrite <- Es. ring.
Qed.
Lemma quadrature1_cons : forall p l f, quadrature1 (p :: l) f = snd p * f (fst p) + quadrature1 l f.
Proof. reflexivity. Qed.
Lemma quadrature1_nil : forall f, quadrature1 [] f = 0.
Proof. reflexivity. Qed.

Lemma sqrt_sq : forall x, 0 <= x -> sqrt x * sqrt x = x.
Proof. intros. apply sqrt_sqrt. assumption. Qed.
Lemma neg_pow_even : forall x j, (- x) ^ (2 * j) = x ^ (2 * j).
Proof. intros. rewrite !even_pow. f_equal. ring. Qed.
Lemma neg_pow_odd : forall x j, (- x) ^ S (2 * j) = - x ^ S (2 * j).
Proof. intros. cbn [pow]. rewrite neg_pow_even. ring. Qed.
(** A symmetric rule has vanishing odd moments *)
Lemma even_or_odd : forall k, exists j, k = (2 * j)%nat \/ k = S (2 * j).
Proof. intros k. exists (Nat.div2 k). destruct (Nat.Even_or_Odd k) as [E|O]; [left; apply Nat.Even_double in E|right; apply Nat.Odd_double in O]; unfold Nat.double in *; lia. Qed.
Lemma target_odd : forall j, (1 ^ S (S (2 * j)) - (-1) ^ S (S (2 * j))) / INR (S (S (2 * j))) = 0.
Proof.
  intros j. replace (S (S (2 * j))) with (2 * S j)%nat by lia. replace (-1) with (Ropp 1) by lra. rewrite neg_pow_even, pow1. field. apply not_0_INR. lia.
Qed.
Lemma target_even : forall j, (1 ^ S (2 * j) - (-1) ^ S (2 * j)) / INR (S (2 * j)) = 2 / INR (S (2 * j)).
Proof. intros j. replace (-1) with (Ropp 1) by lra. rewrite neg_pow_odd, pow1. f_equal. ring. Qed.
Lemma zero_odd : forall j, 0 ^ S (2 * j) = 0.
Proof. intros. apply pow_i. lia. Qed.

Ltac ltj j n L := assert (j < n)%nat by (clear - L; lia).
Ltac cases_j := repeat (match goal with H : (?j < S _)%nat |- _ => destruct j as [|j]; [|apply Nat.succ_lt_mono in H] end);
  try (match goal with H : (_ < 0)%nat |- _ => exfalso; clear - H; lia end).

Lemma moments1 : moments 2 (gauss_ref 1) (-1) 1.
Proof.
  intros k L. destruct k as [|[|k]]; [| |lia]; cbn [gauss_ref]; rewrite quadrature1_cons, quadrature1_nil; cbn [fst snd pow INR]; field.
Qed.
Lemma moments2 : moments 4 (gauss_ref 2) (-1) 1.
Proof.
  intros k L. cbn [gauss_ref]. rewrite !quadrature1_cons, quadrature1_nil. cbn [fst snd].
  assert (S3 : sqrt 3 <> 0) by (intros E; assert (X := sqrt_sq 3 ltac:(lra)); rewrite E in X; lra).
  set (r := -1 / sqrt 3).
  assert (R2 : r * r = 1 / 3). { unfold r. assert (X := sqrt_sq 3 ltac:(lra)). field_simplify; [|assumption]. unfold pow. rewrite Rmult_1_r, X. lra. }
  destruct (even_or_odd k) as [j [->| ->]].
  - rewrite target_even, neg_pow_even, even_pow, R2. ltj j 2%nat L. clear L. cases_j; cbn [pow INR Nat.mul Nat.add]; lra.
  - rewrite target_odd, neg_pow_odd. ring.
Qed.
Lemma moments3 : moments 6 (gauss_ref 3) (-1) 1.
Proof.
  intros k L. cbn [gauss_ref]. rewrite !quadrature1_cons, quadrature1_nil. cbn [fst snd].
  assert (R2 := sqrt_sq (3 / 5) ltac:(lra)). set (r := sqrt (3 / 5)) in *.
  destruct (even_or_odd k) as [j [->| ->]].
  - rewrite target_even, !neg_pow_even, !even_pow, R2. ltj j 3%nat L. clear L. cases_j; cbn [pow INR Nat.mul Nat.add]; lra.
  - rewrite target_odd, !neg_pow_odd, zero_odd. ring.
Qed.
Lemma small_sqrt : forall x, 0 <= x -> forall y, 0 <= y -> y * y < x -> y < sqrt x.
Proof. intros x Hx y Hy L. apply Rsqr_incrst_0; [|exact Hy|apply sqrt_pos]. unfold Rsqr. rewrite sqrt_sq; assumption. Qed.
Lemma large_sqrt : forall x, 0 <= x -> forall y, 0 <= y -> x < y * y -> sqrt x < y.
Proof. intros x Hx y Hy L. apply Rsqr_incrst_0; [|apply sqrt_pos|exact Hy]. unfold Rsqr. rewrite sqrt_sq; assumption. Qed.

(** The data of the rules with 4 and 5 nodes *)
Lemma data4 : exists s a b, s = sqrt (6 / 5) /\ s * s = 6 / 5 /\ 1 < s < 1.1 /\
  a = sqrt ((3 + 2 * s) / 7) /\ b = sqrt ((3 - 2 * s) / 7) /\ a * a = 3 / 7 + 2 / 7 * s /\ b * b = 3 / 7 - 2 / 7 * s /\
  1 / (6 * s) = 5 / 36 * s /\ 0 < a < 1 /\ 0 < b < 1.
Proof.
  exists (sqrt (6 / 5)), (sqrt ((3 + 2 * sqrt (6 / 5)) / 7)), (sqrt ((3 - 2 * sqrt (6 / 5)) / 7)).
  assert (E := sqrt_sq (6 / 5) ltac:(lra)). assert (B1 := small_sqrt (6 / 5) ltac:(lra) 1 ltac:(lra) ltac:(lra)).
  assert (B2 := large_sqrt (6 / 5) ltac:(lra) 1.1 ltac:(lra) ltac:(lra)). set (s := sqrt (6 / 5)) in *.
  assert (Ea := sqrt_sq ((3 + 2 * s) / 7) ltac:(lra)). assert (Eb := sqrt_sq ((3 - 2 * s) / 7) ltac:(lra)).
  assert (A1 := small_sqrt ((3 + 2 * s) / 7) ltac:(lra) 0 ltac:(lra) ltac:(lra)). assert (A2 := large_sqrt ((3 + 2 * s) / 7) ltac:(lra) 1 ltac:(lra) ltac:(lra)).
  assert (A3 := small_sqrt ((3 - 2 * s) / 7) ltac:(lra) 0 ltac:(lra) ltac:(lra)). assert (A4 := large_sqrt ((3 - 2 * s) / 7) ltac:(lra) 1 ltac:(lra) ltac:(lra)).
  repeat split; try assumption; try lra.
  apply Rmult_eq_reg_r with (6 * s); [|lra]. field_simplify; [|lra]. replace (30 * s ^ 2 / 36) with (30 / 36 * (s * s)) by field. rewrite E. lra.
Qed.
Lemma data5 : exists s a b, s = sqrt (5 / 14) /\ s * s = 5 / 14 /\ 0.59 < s < 0.6 /\
  a = sqrt (5 + 4 * s) /\ b = sqrt (5 - 4 * s) /\ a / 3 * (a / 3) = 5 / 9 + 4 / 9 * s /\ b / 3 * (b / 3) = 5 / 9 - 4 / 9 * s /\
  13 / (180 * s) = 182 / 900 * s /\ 0 < a < 3 /\ 0 < b < 3.
Proof.
  exists (sqrt (5 / 14)), (sqrt (5 + 4 * sqrt (5 / 14))), (sqrt (5 - 4 * sqrt (5 / 14))).
  assert (E := sqrt_sq (5 / 14) ltac:(lra)). assert (B1 := small_sqrt (5 / 14) ltac:(lra) 0.59 ltac:(lra) ltac:(lra)).
  assert (B2 := large_sqrt (5 / 14) ltac:(lra) 0.6 ltac:(lra) ltac:(lra)). set (s := sqrt (5 / 14)) in *.
  assert (Ea := sqrt_sq (5 + 4 * s) ltac:(lra)). assert (Eb := sqrt_sq (5 - 4 * s) ltac:(lra)).
  assert (A1 := small_sqrt (5 + 4 * s) ltac:(lra) 0 ltac:(lra) ltac:(lra)). assert (A2 := large_sqrt (5 + 4 * s) ltac:(lra) 3 ltac:(lra) ltac:(lra)).
  assert (A3 := small_sqrt (5 - 4 * s) ltac:(lra) 0 ltac:(lra) ltac:(lra)). assert (A4 := large_sqrt (5 - 4 * s) ltac:(lra) 3 ltac:(lra) ltac:(lra)).
  repeat split; try assumption; try lra.
  apply Rmult_eq_reg_r with (180 * s); [|lra]. field_simplify; [|lra]. replace (32760 * s ^ 2 / 900) with (32760 / 900 * (s * s)) by field. rewrite E. lra.
Qed.
Lemma moments4 : moments 8 (gauss_ref 4) (-1) 1.
Proof.
  intros k L. cbn [gauss_ref]. rewrite !quadrature1_cons, quadrature1_nil. cbn [fst snd].
  destruct data4 as [s [a [b [Es [S2 [_ [Ea [Eb [A2 [B2 [W _]]]]]]]]]]]. rewrite <- Es, <- Ea, <- Eb, W. clear Es Ea Eb W.
  destruct (even_or_odd k) as [j [->| ->]].
  - rewrite target_even, !neg_pow_even.
    transitivity (2 * ((0.5 + - (5 / 36) * s) * a ^ (2 * j) + (0.5 - - (5 / 36) * s) * b ^ (2 * j))); [ring|].
    rewrite (conjugate (6 / 5) (3 / 7) (2 / 7) 0.5 (- (5 / 36)) s a b S2 A2 B2).
    ltj j 4%nat L. clear L S2 A2 B2. cases_j; cbn [spow fst snd INR Nat.mul Nat.add]; lra.
  - rewrite target_odd, !neg_pow_odd. ring.
Qed.
Lemma moments5 : moments 10 (gauss_ref 5) (-1) 1.
Proof.
  intros k L. cbn [gauss_ref]. rewrite !quadrature1_cons, quadrature1_nil. cbn [fst snd].
  destruct data5 as [s [a [b [Es [S2 [_ [Ea [Eb [A2 [B2 [W _]]]]]]]]]]]. rewrite <- Es, <- Ea, <- Eb, W. clear Es Ea Eb W.
  replace (- a / 3) with (- (a / 3)) by field. replace (- b / 3) with (- (b / 3)) by field.
  destruct (even_or_odd k) as [j [->| ->]].
  - rewrite target_even, !neg_pow_even.
    transitivity (2 * ((161 / 450 + - (182 / 900) * s) * (a / 3) ^ (2 * j) + (161 / 450 - - (182 / 900) * s) * (b / 3) ^ (2 * j)) + 128 / 225 * 0 ^ (2 * j)); [ring|].
    rewrite (conjugate (5 / 14) (5 / 9) (4 / 9) (161 / 450) (- (182 / 900)) s (a / 3) (b / 3) S2 A2 B2), even_pow.
    ltj j 5%nat L. clear L S2 A2 B2. cases_j; cbn [spow fst snd INR Nat.mul Nat.add pow]; lra.
  - rewrite target_odd, !neg_pow_odd, zero_odd. ring.
Qed.
Lemma unit_exact : forall n k l, moments k l (-1) 1 -> (n <= k)%nat -> exact n (unit_rule l) 0 1.
Proof.
  intros n k l M L. assert (E := exact_affine k l (-1) 1 0.5 0.5 (moments_exact k l (-1) 1 M)).
  replace (0.5 + 0.5 * -1) with 0 in E by lra. replace (0.5 + 0.5 * 1) with 1 in E by lra.
  intros f P. apply (E f). apply (poly_mono n); assumption.
Qed.
Theorem unit_rules_exact : forall n, (1 <= n <= 5)%nat -> exact (2 * n) (unit_rule (gauss_ref n)) 0 1.
Proof.
  intros n [L1 L2].
  assert (C : n = 1%nat \/ n = 2%nat \/ n = 3%nat \/ n = 4%nat \/ n = 5%nat) by lia.
  destruct C as [->|[->|[->|[->| ->]]]]; eapply unit_exact;
    (apply moments1 || apply moments2 || apply moments3 || apply moments4 || apply moments5 || idtac); lia.
Qed.
(** Nodes inside, weights positive *)
Definition inner (l : rule1) : Prop := Forall (fun p => 0 < fst p < 1 /\ 0 < snd p) l.
Theorem unit_rules_inner : forall n, (1 <= n <= 6)%nat -> inner (unit_rule (gauss_ref n)).
Proof.
  intros n [L1 L2].
  assert (C : n = 1%nat \/ n = 2%nat \/ n = 3%nat \/ n = 4%nat \/ n = 5%nat \/ n = 6%nat) by lia.
  unfold inner, unit_rule. rewrite Forall_map. cbn [fst snd].
  destruct C as [->|[->|[->|[->|[->| ->]]]]]; cbn [gauss_ref].
  - repeat constructor; cbn [fst snd]; lra.
  - assert (B := small_sqrt 3 ltac:(lra) 1 ltac:(lra) ltac:(lra)).
    assert (0 < 1 / sqrt 3 < 1). { split; [apply Rdiv_lt_0_compat; lra|]. apply Rmult_lt_reg_r with (sqrt 3); [lra|]. field_simplify; lra. }
    replace (-1 / sqrt 3) with (- (1 / sqrt 3)) by (field; lra).
    repeat constructor; cbn [fst snd]; lra.
  - assert (B := small_sqrt (3 / 5) ltac:(lra) 0 ltac:(lra) ltac:(lra)). assert (B' := large_sqrt (3 / 5) ltac:(lra) 1 ltac:(lra) ltac:(lra)).
    repeat constructor; cbn [fst snd]; lra.
  - destruct data4 as [s [a [b [Es [S2 [Bs [Ea [Eb [A2 [B2 [W [Ba Bb]]]]]]]]]]]]. rewrite <- Es, <- Ea, <- Eb, W.
    repeat constructor; cbn [fst snd]; lra.
  - destruct data5 as [s [a [b [Es [S2 [Bs [Ea [Eb [A2 [B2 [W [Ba Bb]]]]]]]]]]]]. rewrite <- Es, <- Ea, <- Eb, W.
    repeat constructor; cbn [fst snd]; lra.
  - repeat constructor; cbn [fst snd]; lra.
Qed.

(** * The distance function of src/gmrf.py is a pseudometric *)
From Coq Require Import List Arith Reals Lia Lra Psatz.
From Verif Require Import Tree RMat Spd SpecSpd PdFacts CndFacts Gauss CovFun SpecCov CovFacts.
Import ListNotations.
Local Open Scope R_scope.

Lemma minkowski : forall a b c d, sqrt ((a + c) ^ 2 + (b + d) ^ 2) <= sqrt (a ^ 2 + b ^ 2) + sqrt (c ^ 2 + d ^ 2).
Proof.
  intros a b c d. set (p := sqrt (a ^ 2 + b ^ 2)). set (q := sqrt (c ^ 2 + d ^ 2)).
  assert (Hp : 0 <= p) by apply sqrt_pos. assert (Hq : 0 <= q) by apply sqrt_pos.
  pose proof (pow2_ge_0 a). pose proof (pow2_ge_0 b). pose proof (pow2_ge_0 c). pose proof (pow2_ge_0 d).
  assert (Ep : p * p = a ^ 2 + b ^ 2) by (apply sqrt_sqrt; lra).
  assert (Eq : q * q = c ^ 2 + d ^ 2) by (apply sqrt_sqrt; lra).
  assert (CS : a * c + b * d <= p * q).
  { destruct (Rle_lt_dec (a * c + b * d) 0) as [L|L]; [pose proof (Rmult_le_pos _ _ Hp Hq); lra|].
    apply Rsqr_incr_0_var; [|apply Rmult_le_pos; auto]. unfold Rsqr.
    replace (p * q * (p * q)) with ((a ^ 2 + b ^ 2) * (c ^ 2 + d ^ 2)) by (rewrite <- Ep, <- Eq; ring).
    pose proof (pow2_ge_0 (a * d - b * c)). lra. }
  apply Rsqr_incr_0_var; [|lra]. rewrite Rsqr_sqrt by (pose proof (pow2_ge_0 (a + c)); pose proof (pow2_ge_0 (b + d)); lra).
  unfold Rsqr. replace ((p + q) * (p + q)) with (p * p + q * q + 2 * (p * q)) by ring. rewrite Ep, Eq. lra.
Qed.
(** distances combined from two coordinates *)
Definition hyp (w0 w1 a b : R) : R := sqrt (w0 * a ^ 2 + w1 * b ^ 2).
Lemma hyp_pos : forall w0 w1 a b, 0 <= hyp w0 w1 a b.
Proof. intros. apply sqrt_pos. Qed.
Lemma hyp_triangle : forall w0 w1 a1 b1 a2 b2 a b, 0 <= w0 -> 0 <= w1 -> 0 <= a -> 0 <= b -> a <= a1 + a2 -> b <= b1 + b2 ->
  hyp w0 w1 a b <= hyp w0 w1 a1 b1 + hyp w0 w1 a2 b2.
Proof.
  intros w0 w1 a1 b1 a2 b2 a b H0 H1 Ha Hb La Lb. unfold hyp.
  assert (E0 : sqrt w0 * sqrt w0 = w0) by (apply sqrt_sqrt; auto). assert (E1 : sqrt w1 * sqrt w1 = w1) by (apply sqrt_sqrt; auto).
  apply Rle_trans with (sqrt (w0 * (a1 + a2) ^ 2 + w1 * (b1 + b2) ^ 2)).
  - apply sqrt_le_1_alt. apply Rplus_le_compat; apply Rmult_le_compat_l; auto; apply pow_incr; lra.
  - pose proof (minkowski (sqrt w0 * a1) (sqrt w1 * b1) (sqrt w0 * a2) (sqrt w1 * b2)) as Q.
    replace ((sqrt w0 * a1 + sqrt w0 * a2) ^ 2) with (sqrt w0 * sqrt w0 * (a1 + a2) ^ 2) in Q by ring.
    replace ((sqrt w1 * b1 + sqrt w1 * b2) ^ 2) with (sqrt w1 * sqrt w1 * (b1 + b2) ^ 2) in Q by ring.
    replace ((sqrt w0 * a1) ^ 2) with (sqrt w0 * sqrt w0 * a1 ^ 2) in Q by ring.
    replace ((sqrt w1 * b1) ^ 2) with (sqrt w1 * sqrt w1 * b1 ^ 2) in Q by ring.
    replace ((sqrt w0 * a2) ^ 2) with (sqrt w0 * sqrt w0 * a2 ^ 2) in Q by ring.
    replace ((sqrt w1 * b2) ^ 2) with (sqrt w1 * sqrt w1 * b2 ^ 2) in Q by ring.
    rewrite E0, E1 in Q. exact Q.
Qed.
Lemma hyp_zero : forall w0 w1 a b, 0 < w0 -> 0 < w1 -> hyp w0 w1 a b = 0 -> a = 0 /\ b = 0.
Proof.
  intros w0 w1 a b H0 H1 E. unfold hyp in E. pose proof (pow2_ge_0 a). pose proof (pow2_ge_0 b).
  assert (P1 : 0 <= w0 * a ^ 2) by (apply Rmult_le_pos; lra). assert (P2 : 0 <= w1 * b ^ 2) by (apply Rmult_le_pos; lra).
  apply sqrt_eq_0 in E; [|lra].
  split.
  - destruct (Req_dec a 0) as [|N]; [assumption|]. pose proof (Rmult_lt_0_compat _ _ H0 (sq_pos a N)). lra.
  - destruct (Req_dec b 0) as [|N]; [assumption|]. pose proof (Rmult_lt_0_compat _ _ H1 (sq_pos b N)). lra.
Qed.

Lemma arc_bounds : forall w p q, 0 <= p <= w -> 0 <= q <= w -> 0 <= arc w p q.
Proof. intros w p q Hp Hq. unfold arc, Rmin. destruct (Rle_dec _ _) as [N|N]; revert N; unfold Rabs; repeat destruct (Rcase_abs _); intros; lra. Qed.
Lemma arc_sym : forall w p q, arc w p q = arc w q p.
Proof. intros. unfold arc. rewrite (Rabs_minus_sym p q). reflexivity. Qed.
Lemma arc_same : forall w p, 0 <= w -> arc w p p = 0.
Proof. intros w p Hw. unfold arc. rewrite Rminus_diag_eq, Rabs_R0 by reflexivity. unfold Rmin. destruct (Rle_dec _ _); lra. Qed.
Lemma arc_triangle : forall w p q r, 0 <= p <= w -> 0 <= q <= w -> 0 <= r <= w -> arc w p r <= arc w p q + arc w q r.
Proof.
  intros w p q r Hp Hq Hr. unfold arc, Rmin. repeat destruct (Rle_dec _ _) as [?|?];
    unfold Rabs in *; repeat destruct (Rcase_abs _); lra.
Qed.
Lemma arc_zero : forall w p q, arc w p q = 0 -> p = q \/ Rabs (p - q) = w.
Proof.
  intros w p q. unfold arc, Rmin. destruct (Rle_dec _ _) as [?|?]; intros E; [left|right; lra].
  destruct (Req_dec p q) as [|N]; [assumption|]. pose proof (Rabs_pos_lt (p - q) ltac:(lra)). lra.
Qed.

(** one coordinate of the distance: |p-q|, or the arc between the positions p-lo and q-lo *)
Definition coord (side : option (R * R)) (p q : R) : R :=
  match side with None => Rabs (p - q) | Some (lo, hi) => arc (hi - lo) (p - lo) (q - lo) end.
Definition inside (side : option (R * R)) (p : R) : Prop :=
  match side with None => True | Some (lo, hi) => lo <= p <= hi end.
Lemma coord_pos : forall s p q, inside s p -> inside s q -> 0 <= coord s p q.
Proof. intros [[lo hi]|] p q Hp Hq; cbn in *; [apply arc_bounds; lra|apply Rabs_pos]. Qed.
Lemma coord_sym : forall s p q, coord s p q = coord s q p.
Proof. intros [[lo hi]|] p q; cbn; [apply arc_sym|apply Rabs_minus_sym]. Qed.
Lemma coord_same : forall s p, inside s p -> coord s p p = 0.
Proof. intros [[lo hi]|] p Hp; cbn in *; [apply arc_same; lra|rewrite Rminus_diag_eq, Rabs_R0; reflexivity]. Qed.
Lemma coord_triangle : forall s p q r, inside s p -> inside s q -> inside s r -> coord s p r <= coord s p q + coord s q r.
Proof.
  intros [[lo hi]|] p q r Hp Hq Hr; cbn in *; [apply arc_triangle; lra|].
  replace (p - r) with ((p - q) + (q - r)) by ring. apply Rabs_triang.
Qed.

(** the box as sides *)
Definition sides (periodic : bool) (box : option (list R)) (dim : nat) (sx sy : option (R * R)) : Prop :=
  if periodic then
    (dim = 1%nat /\ exists a b, box = Some [a; b] /\ sx = Some (a, b) /\ sy = None) \/
    (dim = 2%nat /\ exists a b c d, box = Some [a; b; c; d] /\ sx = Some (a, b) /\ sy = Some (c, d))
  else sx = None /\ sy = None.
Lemma coord_wrap : forall lo hi p q, coord (Some (lo, hi)) p q = wrap (hi - lo) (Rabs (p - q)).
Proof. intros. cbn. unfold arc, wrap. replace (p - lo - (q - lo)) with (p - q) by ring. reflexivity. Qed.
Lemma distance_coords : forall x y M w per box sx sy, same_shape x y = true -> planar x -> weights (a_c x) M w ->
  sides per box (a_c x) sx sy ->
  (forall i, (i < a_r x)%nat -> 0 <= coord sx (a_m x i 0%nat) (a_m y i 0%nat)) ->
  exists D, distance x y M per box = Ok D /\ a_r D = a_r x /\ a_c D = 1%nat /\
    forall i, (i < a_r x)%nat -> a_m D i 0%nat =
      if (a_c x =? 1)%nat then hyp (w 0%nat) 0 (coord sx (a_m x i 0%nat) (a_m y i 0%nat)) 0
      else hyp (w 0%nat) (w 1%nat) (coord sx (a_m x i 0%nat) (a_m y i 0%nat)) (coord sy (a_m x i 1%nat) (a_m y i 1%nat)).
Proof.
  intros x y M w per box sx sy Hs Hp Hw Hb Hc. unfold distance. rewrite Hs. destruct Hp as [E|E]; rewrite E in *; cbn [Nat.eqb].
  - set (d := fun i : nat => coord sx (a_m x i 0%nat) (a_m y i 0%nat)).
    assert (B : (if per then match box with None => Err AssertionError | Some [x_min; x_max] =>
        Ok (fun i => wrap (x_max - x_min) (Rabs (a_m x i 0%nat - a_m y i 0%nat))) | Some _ => Err ValueError end
        else Ok (fun i => Rabs (a_m x i 0%nat - a_m y i 0%nat))) = Ok d \/
        exists d', (if per then match box with None => Err AssertionError | Some [x_min; x_max] =>
        Ok (fun i => wrap (x_max - x_min) (Rabs (a_m x i 0%nat - a_m y i 0%nat))) | Some _ => Err ValueError end
        else Ok (fun i => Rabs (a_m x i 0%nat - a_m y i 0%nat))) = Ok d' /\ forall i, d' i = d i).
    { right. destruct per; cbn in Hb.
      - destruct Hb as [(_ & a & b & -> & -> & _)|(Hb & _)]; [|discriminate]. eexists. split; [reflexivity|].
        intros i. unfold d. rewrite coord_wrap. reflexivity.
      - destruct Hb as [-> _]. eexists. split; reflexivity. }
    assert (B' : exists d', (if per then match box with None => Err AssertionError | Some [x_min; x_max] =>
        Ok (fun i => wrap (x_max - x_min) (Rabs (a_m x i 0%nat - a_m y i 0%nat))) | Some _ => Err ValueError end
        else Ok (fun i => Rabs (a_m x i 0%nat - a_m y i 0%nat))) = Ok d' /\ forall i, d' i = d i).
    { destruct B as [B|B]; [exists d; auto|exact B]. }
    clear B. destruct B' as (d' & Bd & Ed). cbv zeta. rewrite Bd. cbn [bind].
    assert (H1 : forall m i, 0 <= m -> (i < a_r x)%nat -> sqrt m * d' i = hyp m 0 (d i) 0).
    { intros m i Hm Hi. rewrite Ed. unfold hyp. rewrite sqrt_sq_mul; [f_equal; ring|exact Hm|]. apply Hc, Hi. }
    destruct M as [|m|T].
    + eexists. split; [reflexivity|]. cbn [a_r a_c a_m]. repeat split. intros i Hi. cbn in Hw. rewrite (Hw 0%nat) by lia.
      fold (d i). rewrite <- (H1 1 i) by (auto; lra). rewrite sqrt_1. ring.
    + destruct Hw as (_ & Hm & Hw). destruct (Rle_dec 0 m) as [_|N]; [|lra].
      eexists. split; [reflexivity|]. cbn [a_r a_c a_m]. repeat split. intros i Hi. rewrite Hw. apply H1; auto.
    + destruct Hw as [Hw _]. discriminate.
  - set (dx := fun i : nat => coord sx (a_m x i 0%nat) (a_m y i 0%nat)). set (dy := fun i : nat => coord sy (a_m x i 1%nat) (a_m y i 1%nat)).
    assert (B : exists e f, (if per then match box with None => Err AssertionError | Some [x_min; x_max; y_min; y_max] =>
        Ok (fun i => wrap (x_max - x_min) (Rabs (a_m x i 0%nat - a_m y i 0%nat)), fun i => wrap (y_max - y_min) (Rabs (a_m x i 1%nat - a_m y i 1%nat)))
          | Some _ => Err ValueError end
        else Ok (fun i => Rabs (a_m x i 0%nat - a_m y i 0%nat), fun i => Rabs (a_m x i 1%nat - a_m y i 1%nat))) = Ok (e, f) /\
        (forall i, e i = dx i) /\ (forall i, f i = dy i)).
    { destruct per; cbn in Hb.
      - destruct Hb as [(Hb & _)|(_ & a & b & c & d & -> & -> & ->)]; [discriminate|]. eexists. eexists. split; [reflexivity|].
        split; intros i; [unfold dx|unfold dy]; rewrite coord_wrap; reflexivity.
      - destruct Hb as [-> ->]. eexists. eexists. split; [reflexivity|]. split; reflexivity. }
    destruct B as (e & f & Be & Ee & Ef). cbv zeta. rewrite Be. cbn [bind].
    destruct M as [|m|T].
    + eexists. split; [reflexivity|]. cbn [a_r a_c a_m]. repeat split. intros i Hi. cbn in Hw. rewrite (Hw 0%nat), (Hw 1%nat) by lia.
      rewrite Ee, Ef. unfold hyp. f_equal. unfold dx, dy. ring.
    + destruct Hw as [Hw _]. discriminate.
    + destruct Hw as (_ & H1 & H2 & H3 & H4 & H5 & H6 & H7 & H8). rewrite H1, H2. cbn [Nat.eqb andb].
      rewrite diag_accepted by (auto; lra).
      eexists. split; [reflexivity|]. cbn [a_r a_c a_m]. repeat split. intros i Hi.
      rewrite H3, H4, H7, H8, Ee, Ef. unfold hyp. f_equal. unfold dx, dy. ring.
Qed.

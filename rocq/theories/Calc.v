(** * First-order expansions of functions of two rational variables *)
From Coq Require Import List Arith Bool Lia QArith Qabs Qminmax Lqa Qring Qfield.
From Verif Require Import Tree Geom SpecGeom QuadGeomFacts Fem SpecFem ShapeFacts.
Import ListNotations.
Open Scope Q_scope.

Definition taylor (F : Q -> Q -> Q) (s t a b : Q) : Prop :=
  exists C dl, 0 <= C /\ 0 < dl /\ dl <= 1 /\ forall d s' t', d <= dl -> Qabs (s' - s) <= d -> Qabs (t' - t) <= d ->
    Qabs (F s' t' - F s t - a * (s' - s) - b * (t' - t)) <= C * (d * d).

Lemma abs_le x y : Qabs x <= y <-> - y <= x /\ x <= y.
Proof. split; [apply Qabs_Qle_condition|apply Qabs_Qle_condition]. Qed.
Lemma abs_mul_le x y a b : Qabs x <= a -> Qabs y <= b -> Qabs (x * y) <= a * b.
Proof.
  intros H1 H2. rewrite Qabs_Qmult. pose proof (Qabs_nonneg x). pose proof (Qabs_nonneg y).
  apply Qle_trans with (Qabs x * b).
  - rewrite !(Qmult_comm (Qabs x)). apply Qmult_le_compat_r; auto.
  - apply Qmult_le_compat_r; auto. lra.
Qed.
Lemma abs_add_le x y a b : Qabs x <= a -> Qabs y <= b -> Qabs (x + y) <= a + b.
Proof. intros. eapply Qle_trans; [apply Qabs_triangle|]. lra. Qed.
Lemma abs_sub_le x y a b : Qabs x <= a -> Qabs y <= b -> Qabs (x - y) <= a + b.
Proof. intros. unfold Qminus. apply abs_add_le; auto. rewrite Qabs_opp. auto. Qed.

Lemma taylor_ext F G s t a b a' b' : taylor F s t a b ->
  (exists dl, 0 < dl /\ forall s' t', Qabs (s' - s) <= dl -> Qabs (t' - t) <= dl -> G s' t' == F s' t') ->
  a' == a -> b' == b -> taylor G s t a' b'.
Proof.
  intros [C [dl [HC [Hd [H1 B]]]]] [e [He E]] Ha Hb. exists C, (Qmin dl e). split; [auto|].
  split; [apply Q.min_glb_lt; auto|]. split; [eapply Qle_trans; [apply Q.le_min_l|auto]|].
  intros d s' t' Hdd Hs Ht.
  assert (d <= dl) by (eapply Qle_trans; [apply Hdd|apply Q.le_min_l]).
  assert (d <= e) by (eapply Qle_trans; [apply Hdd|apply Q.le_min_r]).
  rewrite (E s' t'), (E s t), Ha, Hb.
  - apply B; auto.
  - setoid_replace (s - s) with 0 by ring. change (Qabs 0) with 0. lra.
  - setoid_replace (t - t) with 0 by ring. change (Qabs 0) with 0. lra.
  - lra.
  - lra.
Qed.
Lemma taylor_eq F G s t a b a' b' : taylor F s t a b -> (forall s' t', G s' t' == F s' t') -> a' == a -> b' == b -> taylor G s t a' b'.
Proof. intros T E Ha Hb. eapply taylor_ext; eauto. exists 1. split; [reflexivity|]. auto. Qed.

Lemma taylor_affine s t a b c : taylor (fun x y => a * x + b * y + c) s t a b.
Proof.
  exists 0, 1. split; [lra|]. split; [lra|]. split; [lra|]. intros d s' t' _ _ _.
  setoid_replace (a * s' + b * t' + c - (a * s + b * t + c) - a * (s' - s) - b * (t' - t)) with 0 by ring.
  change (Qabs 0) with 0. lra.
Qed.
(** the change of the function *)
Lemma taylor_lip F s t a b : taylor F s t a b ->
  exists L dl, 0 <= L /\ 0 < dl /\ dl <= 1 /\ forall d s' t', d <= dl -> Qabs (s' - s) <= d -> Qabs (t' - t) <= d ->
    Qabs (F s' t' - F s t) <= L * d.
Proof.
  intros [C [dl [HC [Hd [H1 B]]]]]. exists (C + Qabs a + Qabs b), dl.
  pose proof (Qabs_nonneg a). pose proof (Qabs_nonneg b).
  split; [lra|]. split; [auto|]. split; [auto|]. intros d s' t' Hdd Hs Ht.
  pose proof (Qabs_nonneg (s' - s)).
  setoid_replace (F s' t' - F s t) with ((F s' t' - F s t - a * (s' - s) - b * (t' - t)) + (a * (s' - s) + b * (t' - t))) by ring.
  assert (X := B d s' t' Hdd Hs Ht).
  assert (A1 : Qabs (a * (s' - s)) <= Qabs a * d) by (apply abs_mul_le; [apply Qle_refl|auto]).
  assert (A2 : Qabs (b * (t' - t)) <= Qabs b * d) by (apply abs_mul_le; [apply Qle_refl|auto]).
  assert (A3 := abs_add_le _ _ _ _ A1 A2). assert (A4 := abs_add_le _ _ _ _ X A3).
  eapply Qle_trans; [apply A4|]. assert (0 <= C * d) by (apply Qmult_le_0_compat; lra). nra.
Qed.
Lemma taylor_plus F G s t a b a' b' : taylor F s t a b -> taylor G s t a' b' ->
  taylor (fun x y => F x y + G x y) s t (a + a') (b + b').
Proof.
  intros [C [dl [HC [Hd [H1 B]]]]] [C' [dl' [HC' [Hd' [H1' B']]]]]. exists (C + C'), (Qmin dl dl').
  split; [lra|]. split; [apply Q.min_glb_lt; auto|]. split; [eapply Qle_trans; [apply Q.le_min_l|auto]|].
  intros d s' t' Hdd Hs Ht.
  assert (D1 : d <= dl) by (eapply Qle_trans; [apply Hdd|apply Q.le_min_l]).
  assert (D2 : d <= dl') by (eapply Qle_trans; [apply Hdd|apply Q.le_min_r]).
  assert (X := abs_add_le _ _ _ _ (B d s' t' D1 Hs Ht) (B' d s' t' D2 Hs Ht)).
  setoid_replace (F s' t' + G s' t' - (F s t + G s t) - (a + a') * (s' - s) - (b + b') * (t' - t)) with
    (F s' t' - F s t - a * (s' - s) - b * (t' - t) + (G s' t' - G s t - a' * (s' - s) - b' * (t' - t))) by ring.
  eapply Qle_trans; [apply X|]. lra.
Qed.
Lemma taylor_mult F G s t a b a' b' : taylor F s t a b -> taylor G s t a' b' ->
  taylor (fun x y => F x y * G x y) s t (a * G s t + F s t * a') (b * G s t + F s t * b').
Proof.
  intros TF TG. destruct (taylor_lip _ _ _ _ _ TF) as [L [e [HL [He [_ BL]]]]].
  destruct (taylor_lip _ _ _ _ _ TG) as [L' [e' [HL' [He' [_ BL']]]]].
  destruct TF as [C [dl [HC [Hd [H1 B]]]]]. destruct TG as [C' [dl' [HC' [Hd' [H1' B']]]]].
  exists (Qabs (F s t) * C' + Qabs (G s t) * C + L * L'), (Qmin (Qmin dl dl') (Qmin e e')).
  pose proof (Qabs_nonneg (F s t)). pose proof (Qabs_nonneg (G s t)).
  assert (P1 : 0 <= Qabs (F s t) * C') by (apply Qmult_le_0_compat; auto).
  assert (P2 : 0 <= Qabs (G s t) * C) by (apply Qmult_le_0_compat; auto).
  assert (P3 : 0 <= L * L') by (apply Qmult_le_0_compat; auto).
  split; [lra|]. split; [repeat apply Q.min_glb_lt; auto|].
  split; [eapply Qle_trans; [apply Q.le_min_l|]; eapply Qle_trans; [apply Q.le_min_l|auto]|].
  intros d s' t' Hdd Hs Ht.
  assert (D1 : d <= dl) by (eapply Qle_trans; [apply Hdd|]; eapply Qle_trans; [apply Q.le_min_l|apply Q.le_min_l]).
  assert (D2 : d <= dl') by (eapply Qle_trans; [apply Hdd|]; eapply Qle_trans; [apply Q.le_min_l|apply Q.le_min_r]).
  assert (D3 : d <= e) by (eapply Qle_trans; [apply Hdd|]; eapply Qle_trans; [apply Q.le_min_r|apply Q.le_min_l]).
  assert (D4 : d <= e') by (eapply Qle_trans; [apply Hdd|]; eapply Qle_trans; [apply Q.le_min_r|apply Q.le_min_r]).
  assert (X1 := B d s' t' D1 Hs Ht). assert (X2 := B' d s' t' D2 Hs Ht).
  assert (X3 := BL d s' t' D3 Hs Ht). assert (X4 := BL' d s' t' D4 Hs Ht).
  set (rF := F s' t' - F s t - a * (s' - s) - b * (t' - t)) in *.
  set (rG := G s' t' - G s t - a' * (s' - s) - b' * (t' - t)) in *.
  setoid_replace (F s' t' * G s' t' - F s t * G s t - (a * G s t + F s t * a') * (s' - s) - (b * G s t + F s t * b') * (t' - t)) with
    (F s t * rG + G s t * rF + (F s' t' - F s t) * (G s' t' - G s t)) by (unfold rF, rG; ring).
  eapply Qle_trans; [apply abs_add_le; [apply abs_add_le|];
    [apply abs_mul_le; [apply Qle_refl|apply X2]|apply abs_mul_le; [apply Qle_refl|apply X1]|apply abs_mul_le; [apply X3|apply X4]]|].
  apply Qle_lteq. right. ring.
Qed.
Lemma taylor_inv F s t a b : taylor F s t a b -> ~ F s t == 0 ->
  taylor (fun x y => / F x y) s t (- a / (F s t * F s t)) (- b / (F s t * F s t)) /\
  exists dl, 0 < dl /\ forall s' t', Qabs (s' - s) <= dl -> Qabs (t' - t) <= dl -> ~ F s' t' == 0.
Proof.
  intros TF N. destruct (taylor_lip _ _ _ _ _ TF) as [L [e [HL [He [_ BL]]]]].
  destruct TF as [C [dl [HC [Hd [H1 B]]]]].
  set (m := Qabs (F s t)).
  assert (Hm : 0 < m).
  { unfold m. pose proof (Qabs_nonneg (F s t)). destruct (Qlt_le_dec 0 (Qabs (F s t))); auto.
    exfalso. apply N. assert (Z : Qabs (F s t) <= 0) by lra. apply abs_le in Z. lra. }
  set (w := m / (2 * (L + 1))).
  assert (Hw : 0 < w) by (unfold w; apply Qlt_shift_div_l; lra).
  assert (Ew : w * (2 * (L + 1)) == m) by (unfold w; field; lra).
  assert (Low : forall d s' t', d <= e -> d <= w -> Qabs (s' - s) <= d -> Qabs (t' - t) <= d -> m / 2 <= Qabs (F s' t')).
  { intros d s' t' D1 D2 Hs Ht. assert (X := BL d s' t' D1 Hs Ht).
    assert (0 <= d) by (pose proof (Qabs_nonneg (s' - s)); lra).
    assert (L * d <= m / 2).
    { assert (E2 : m / 2 == w * (L + 1)) by (rewrite <- Ew; field). rewrite E2. nra. }
    assert (T : m <= Qabs (F s' t') + Qabs (F s' t' - F s t)).
    { unfold m. setoid_replace (F s t) with (F s' t' - (F s' t' - F s t)) at 1 by ring. unfold Qminus at 1.
      eapply Qle_trans; [apply Qabs_triangle|]. rewrite Qabs_opp. apply Qle_refl. }
    assert (m == m / 2 + m / 2) by field. lra. }
  split.
  - exists ((C + 2 * L * L / m) / (m * m)), (Qmin (Qmin dl e) w).
    assert (M2 : 0 < m * m) by nra.
    assert (P1 : 0 <= 2 * L * L / m) by (apply Qle_shift_div_l; auto; nra).
    split; [apply Qle_shift_div_l; auto; lra|]. split; [repeat apply Q.min_glb_lt; auto|].
    split; [eapply Qle_trans; [apply Q.le_min_l|]; eapply Qle_trans; [apply Q.le_min_l|auto]|].
    intros d s' t' Hdd Hs Ht.
    assert (D1 : d <= dl) by (eapply Qle_trans; [apply Hdd|]; eapply Qle_trans; [apply Q.le_min_l|apply Q.le_min_l]).
    assert (D2 : d <= e) by (eapply Qle_trans; [apply Hdd|]; eapply Qle_trans; [apply Q.le_min_l|apply Q.le_min_r]).
    assert (D3 : d <= w) by (eapply Qle_trans; [apply Hdd|apply Q.le_min_r]).
    assert (X1 := B d s' t' D1 Hs Ht). assert (X3 := BL d s' t' D2 Hs Ht). assert (X4 := Low d s' t' D2 D3 Hs Ht).
    assert (N' : ~ F s' t' == 0). { intro Z. rewrite Z in X4. change (Qabs 0) with 0 in X4. assert (0 < m / 2) by (apply Qlt_shift_div_l; lra). lra. }
    set (r := F s' t' - F s t - a * (s' - s) - b * (t' - t)) in *.
    set (D := F s' t' - F s t) in *.
    assert (E : / F s' t' - / F s t - - a / (F s t * F s t) * (s' - s) - - b / (F s t * F s t) * (t' - t) ==
                (D * D * / F s' t' - r) * / (F s t * F s t)) by (unfold r, D; field; auto).
    rewrite E. clear E.
    assert (A0 : Qabs (/ (F s t * F s t)) == / (m * m)).
    { rewrite Qabs_Qinv, Qabs_Qmult. reflexivity. }
    assert (A1 : Qabs (/ F s' t') <= 2 / m).
    { rewrite Qabs_Qinv. apply Qle_shift_div_l; auto.
      assert (0 < Qabs (F s' t')) by (assert (0 < m / 2) by (apply Qlt_shift_div_l; lra); lra).
      setoid_replace 2 with (/ Qabs (F s' t') * (2 * Qabs (F s' t'))) by (field; lra).
      rewrite !(Qmult_comm (/ Qabs (F s' t'))). apply Qmult_le_compat_r; [|apply Qlt_le_weak, Qinv_lt_0_compat; auto].
      assert (m == m / 2 + m / 2) by field. lra. }
    rewrite Qabs_Qmult, A0. unfold Qdiv at 1. rewrite <- (Qmult_assoc _ (/ (m * m))), (Qmult_comm (/ (m * m)) (d * d)), Qmult_assoc.
    apply Qmult_le_compat_r; [|apply Qlt_le_weak, Qinv_lt_0_compat; auto].
    eapply Qle_trans; [apply abs_sub_le; [apply abs_mul_le; [apply abs_mul_le; apply X3|apply A1]|apply X1]|].
    apply Qle_lteq. right. field. lra.
  - exists (Qmin e w). split; [apply Q.min_glb_lt; auto|]. intros s' t' Hs Ht Z.
    assert (X := Low (Qmin e w) s' t' (Q.le_min_l _ _) (Q.le_min_r _ _) Hs Ht). rewrite Z in X. change (Qabs 0) with 0 in X.
    assert (0 < m / 2) by (apply Qlt_shift_div_l; lra). lra.
Qed.
Lemma taylor_x (f : Q -> Q) c s t : (forall x, f x == cub c x) -> taylor (fun x y => f x) s t (cub_x c s) 0.
Proof.
  intro E. destruct (cub_rem_bound c s) as [C [HC B]]. exists C, 1. split; [auto|]. split; [lra|]. split; [lra|].
  intros d s' t' Hd Hs Ht. rewrite !E. pose proof (cub_expand c s (s' - s)) as X.
  assert (Q : cub c (s + (s' - s)) == cub c s') by (destruct c as [[[? ?] ?] ?]; unfold cub; ring).
  rewrite Q in X. setoid_replace (cub c s' - cub c s - cub_x c s * (s' - s) - 0 * (t' - t)) with (cub c s' - cub c s - cub_x c s * (s' - s)) by ring.
  rewrite X. rewrite (Qmult_comm C). apply abs_mul_le; [apply abs_mul_le; auto|]. apply B. lra.
Qed.
Lemma taylor_xx (f : Q -> Q) c s t : (forall x, f x == cub_x c x) -> taylor (fun x y => f x) s t (cub_xx c s) 0.
Proof.
  intro E. destruct (cub_rem_x_bound c s) as [C [HC B]]. exists C, 1. split; [auto|]. split; [lra|]. split; [lra|].
  intros d s' t' Hd Hs Ht. rewrite !E. pose proof (cub_x_expand c s (s' - s)) as X.
  assert (Q : cub_x c (s + (s' - s)) == cub_x c s') by (destruct c as [[[? ?] ?] ?]; unfold cub_x; ring).
  rewrite Q in X. setoid_replace (cub_x c s' - cub_x c s - cub_xx c s * (s' - s) - 0 * (t' - t)) with (cub_x c s' - cub_x c s - cub_xx c s * (s' - s)) by ring.
  rewrite X. rewrite (Qmult_comm C). apply abs_mul_le; [apply abs_mul_le; auto|]. apply B. lra.
Qed.
Lemma taylor_swap F s t a b : taylor F s t a b -> taylor (fun x y => F y x) t s b a.
Proof.
  intros [C [dl [HC [Hd [H1 B]]]]]. exists C, dl. split; [auto|]. split; [auto|]. split; [auto|].
  intros d s' t' Hdd Hs Ht.
  setoid_replace (F t' s' - F s t - b * (s' - t) - a * (t' - s)) with (F t' s' - F s t - a * (t' - s) - b * (s' - t)) by ring.
  apply B; auto.
Qed.
Lemma taylor_y (f : Q -> Q) c s t : (forall x, f x == cub c x) -> taylor (fun x y => f y) s t 0 (cub_x c t).
Proof. intro E. apply (taylor_swap _ _ _ _ _ (taylor_x f c t s E)). Qed.
Lemma taylor_yy (f : Q -> Q) c s t : (forall x, f x == cub_x c x) -> taylor (fun x y => f y) s t 0 (cub_xx c t).
Proof. intro E. apply (taylor_swap _ _ _ _ _ (taylor_xx f c t s E)). Qed.

(** ** from the reference square to the cell *)
Lemma gradient_of_taylor q (f : pt -> res Q) (F : Q -> Q -> Q) p a b K gx gy :
  in_unit p -> qjac_inv (qjac q (fst p) (snd p)) = Some K ->
  (forall s t, in_unit (s, t) -> exists v, f (s, t) = Ok v /\ v == F s t) ->
  taylor F (fst p) (snd p) a b -> gx == a * j11 K + b * j21 K -> gy == a * j12 K + b * j22 K ->
  cell_gradient q f p gx gy.
Proof.
  destruct p as [s t]. cbn [fst snd]. intros HU HK Hf [C [dl [HC [Hd [H1 B]]]]] Gx Gy.
  destruct (Hf s t HU) as [v [Ev Fv]]. exists v. split; [auto|]. intros eps He.
  destruct (qjac_inv_ok _ _ HK) as [N [K1 [K2 [K3 K4]]]].
  set (J := qjac q s t) in *. set (M := Qabs (fst (qmixed q))) in *. set (M' := Qabs (snd (qmixed q))) in *.
  (* L (|dx| + |dy|) >= d *)
  set (k := Qabs (j11 K) + Qabs (j12 K) + Qabs (j21 K) + Qabs (j22 K)).
  pose proof (Qabs_nonneg (j11 K)) as N1. pose proof (Qabs_nonneg (j12 K)) as N2. pose proof (Qabs_nonneg (j21 K)) as N3. pose proof (Qabs_nonneg (j22 K)) as N4.
  pose proof (Qabs_nonneg (fst (qmixed q))) as N5. pose proof (Qabs_nonneg (snd (qmixed q))) as N6. fold M in N5. fold M' in N6.
  assert (Hk : 0 <= k) by (unfold k; lra).
  set (W := k * (M + M')). assert (HW : 0 <= W) by (apply Qmult_le_0_compat; lra).
  set (C' := C + (Qabs gx + Qabs gy) * (M + M')).
  pose proof (Qabs_nonneg gx) as N7. pose proof (Qabs_nonneg gy) as N8.
  assert (HC' : 0 <= C') by (assert (0 <= (Qabs gx + Qabs gy) * (M + M')) by (apply Qmult_le_0_compat; lra); unfold C'; lra).
  set (w := 1 / (2 * (W + 1))). assert (Hw : 0 < w) by (apply Qlt_shift_div_l; lra).
  assert (Ew : w * (2 * (W + 1)) == 1) by (unfold w; field; lra).
  set (z := eps / (2 * (k + 1) * (C' + 1))).
  assert (Hz0 : 0 < 2 * (k + 1) * (C' + 1)) by nra.
  assert (Hz : 0 < z) by (apply Qlt_shift_div_l; lra).
  assert (Ez : z * (2 * (k + 1) * (C' + 1)) == eps) by (unfold z; field; lra).
  exists (Qmin (Qmin dl w) z). split; [repeat apply Q.min_glb_lt; auto|].
  intros [s' t'] HU' Hs Ht. cbn [fst snd] in *. destruct (Hf s' t' HU') as [v' [Ev' Fv']]. exists v'. split; [auto|].
  set (h := s' - s) in *. set (kk := t' - t) in *. set (d := Qmax (Qabs h) (Qabs kk)).
  assert (Dh : Qabs h <= d) by apply Q.le_max_l. assert (Dk : Qabs kk <= d) by apply Q.le_max_r.
  assert (Dd : d <= Qmin (Qmin dl w) z) by (apply Q.max_lub; auto).
  assert (D1 : d <= dl) by (eapply Qle_trans; [apply Dd|]; eapply Qle_trans; [apply Q.le_min_l|apply Q.le_min_l]).
  assert (D2 : d <= w) by (eapply Qle_trans; [apply Dd|]; eapply Qle_trans; [apply Q.le_min_l|apply Q.le_min_r]).
  assert (D3 : d <= z) by (eapply Qle_trans; [apply Dd|apply Q.le_min_r]).
  assert (D0 : 0 <= d) by (pose proof (Qabs_nonneg h); lra).
  assert (X := B d s' t' D1 Dh Dk). fold h kk in X. rewrite <- Fv, <- Fv' in X.
  destruct (qmap_expand q s t h kk) as [Q1 Q2].
  assert (R1 : fst (qmap q s' t') == fst (qmap q (s + h) (t + kk))).
  { unfold h, kk. destruct q as [[[[? ?] [? ?]] [? ?]] [? ?]]. unfold qmap. cbn [fst snd]. ring. }
  assert (R2 : snd (qmap q s' t') == snd (qmap q (s + h) (t + kk))).
  { unfold h, kk. destruct q as [[[[? ?] [? ?]] [? ?]] [? ?]]. unfold qmap. cbn [fst snd]. ring. }
  rewrite <- R1 in Q1. rewrite <- R2 in Q2. fold J in Q1, Q2.
  set (dx := fst (qmap q s' t') - fst (qmap q s t)). set (dy := snd (qmap q s' t') - snd (qmap q s t)). cbn zeta.
  set (m1 := fst (qmixed q)) in *. set (m2 := snd (qmixed q)) in *.
  assert (E1 : dx == j11 J * h + j12 J * kk + h * kk * m1) by (unfold dx; rewrite Q1; ring).
  assert (E2 : dy == j21 J * h + j22 J * kk + h * kk * m2) by (unfold dy; rewrite Q2; ring).
  assert (I1 : h == j11 K * dx + j12 K * dy - h * kk * (j11 K * m1 + j12 K * m2)).
  { rewrite E1, E2, K1, K2. unfold qdet in *. field. auto. }
  assert (I2 : kk == j21 K * dx + j22 K * dy - h * kk * (j21 K * m1 + j22 K * m2)).
  { rewrite E1, E2, K3, K4. unfold qdet in *. field. auto. }
  assert (Bhk : Qabs (h * kk) <= d * d) by (apply abs_mul_le; auto).
  pose proof (Qabs_nonneg dx) as Ax. pose proof (Qabs_nonneg dy) as Ay.
  (* lower bound *)
  assert (G : forall u u1 u2, u == u1 * dx + u2 * dy - h * kk * (u1 * m1 + u2 * m2) -> Qabs u1 + Qabs u2 <= k ->
     Qabs u <= k * (Qabs dx + Qabs dy) + W * (d * d)).
  { intros u u1 u2 -> Hu. pose proof (Qabs_nonneg u1) as U1. pose proof (Qabs_nonneg u2) as U2.
    eapply Qle_trans.
    { apply abs_sub_le; [apply abs_add_le; apply abs_mul_le; apply Qle_refl|
        apply abs_mul_le; [apply Bhk|apply abs_add_le; apply abs_mul_le; apply Qle_refl]]. }
    fold M M'. unfold W. assert (0 <= d * d) by nra.
    assert (Qabs u1 * Qabs dx + Qabs u2 * Qabs dy <= k * (Qabs dx + Qabs dy)) by nra.
    assert (Qabs u1 * M + Qabs u2 * M' <= k * (M + M')) by nra.
    assert (d * d * (Qabs u1 * M + Qabs u2 * M') <= d * d * (k * (M + M'))).
    { rewrite !(Qmult_comm (d * d)). apply Qmult_le_compat_r; auto. } lra. }
  assert (Gh := G h _ _ I1 ltac:(unfold k; lra)). assert (Gk := G kk _ _ I2 ltac:(unfold k; lra)).
  assert (Gd : d <= k * (Qabs dx + Qabs dy) + W * (d * d)) by (apply Q.max_lub; auto).
  assert (Hd2 : W * (d * d) <= d / 2).
  { assert (Q3 : W * d <= W * w) by (rewrite !(Qmult_comm W); apply Qmult_le_compat_r; auto).
    assert (Q4 : W * w <= 1 # 2) by (clear - Ew Hw; lra).
    assert (Q5 : W * d * d <= (1 # 2) * d) by (apply Qmult_le_compat_r; [lra|auto]).
    setoid_replace (d / 2) with ((1 # 2) * d) by field. lra. }
  assert (Gd' : d <= 2 * (k + 1) * (Qabs dx + Qabs dy)).
  { assert (Q6 : d == d / 2 + d / 2) by field. clear - Gd Hd2 Q6 Ax Ay Hk. lra. }
  (* the remainder *)
  assert (T : Qabs (v' - v - gx * dx - gy * dy) <= C' * (d * d)).
  { setoid_replace (v' - v - gx * dx - gy * dy) with
      ((v' - v - a * h - b * kk) - h * kk * (gx * m1 + gy * m2)).
    2:{ assert (E : a * h + b * kk == gx * dx + gy * dy - h * kk * (gx * m1 + gy * m2)).
        { rewrite I1 at 1. rewrite I2 at 2. rewrite Gx, Gy. ring. }
        setoid_replace (v' - v - a * h - b * kk) with (v' - v - (a * h + b * kk)) by ring. rewrite E. ring. }
    eapply Qle_trans.
    { apply abs_sub_le; [apply X|]. apply abs_mul_le; [apply Bhk|apply abs_add_le; apply abs_mul_le; apply Qle_refl]. }
    fold M M'. unfold C'. assert (0 <= d * d) by nra.
    assert (Qabs gx * M + Qabs gy * M' <= (Qabs gx + Qabs gy) * (M + M')) by nra.
    assert (d * d * (Qabs gx * M + Qabs gy * M') <= d * d * ((Qabs gx + Qabs gy) * (M + M'))).
    { rewrite !(Qmult_comm (d * d)). apply Qmult_le_compat_r; auto. } lra. }
  eapply Qle_trans; [apply T|].
  assert (S1 : C' * d <= C' * z) by (rewrite !(Qmult_comm C'); apply Qmult_le_compat_r; auto).
  assert (S2 : C' * (d * d) <= C' * z * d) by (rewrite Qmult_assoc; apply Qmult_le_compat_r; auto).
  assert (S3 : 0 <= C' * z) by (apply Qmult_le_0_compat; lra).
  assert (S4 : C' * z * d <= C' * z * (2 * (k + 1) * (Qabs dx + Qabs dy))).
  { rewrite !(Qmult_comm (C' * z)). apply Qmult_le_compat_r; auto. }
  assert (S5 : C' * z * (2 * (k + 1) * (Qabs dx + Qabs dy)) <= eps * (Qabs dx + Qabs dy)).
  { rewrite <- Ez. assert (0 <= z * (2 * (k + 1)) * (Qabs dx + Qabs dy)).
    { apply Qmult_le_0_compat; [apply Qmult_le_0_compat; lra|lra]. }
    lra. }
  lra.
Qed.

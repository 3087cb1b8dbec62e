(** * C35: derivatives of shape functions on mapped cells (src/fem.py 469-686) *)
From Coq Require Import List Arith Bool Lia QArith Qabs Qminmax Lqa Qring Qfield.
From Verif Require Import Tree Geom SpecGeom QuadGeomFacts Fem SpecFem ShapeFacts Calc.
Import ListNotations.
Open Scope Q_scope.

(** the values of shape with the Jacobian, as reference_map returns it, at every point *)
Definition with_jac (q : quad) (p : pt) {X} (k : jac -> res X) : res X :=
  match qjac_inv (qjac q (fst p) (snd p)) with Some K => k K | None => Err NameError end.
Definition value_on (rect : bool) (e : elem) (n : nat) (p : pt) : res Q := shape2 e n p V0 None None (Some rect).
Definition first_on (rect : bool) (q : quad) (e : elem) (n : nat) (i : nat) (p : pt) : res Q :=
  with_jac q p (fun K => shape2 e n p (V1 i) (Some K) None (Some rect)).
Definition second_on (rect : bool) (q : quad) (e : elem) (n : nat) (i j : nat) (p : pt) : res Q :=
  with_jac q p (fun K => bind (hess_p2r_request rect true q (fst p) (snd p)) (fun H =>
    shape2 e n p (V2 i j) (Some K) (Some H) (Some rect))).

Lemma unit_b_in p : in_unit p -> unit_b (fst p) && unit_b (snd p) = true.
Proof.
  intros [[A B] [C D]]. unfold unit_b. rewrite !andb_true_iff. repeat split; apply Qle_bool_iff; auto.
Qed.
Lemma inv_ex J : ~ qdet J == 0 -> exists K, qjac_inv J = Some K.
Proof.
  intro N. unfold qjac_inv. rewrite !sdiv_some by auto. eauto.
Qed.
Section jac_taylor.
Variables (q : quad) (s t : Q).
Let m1 := fst (qmixed q). Let m2 := snd (qmixed q).
Lemma t11 : taylor (fun x y => j11 (qjac q x y)) s t 0 m1.
Proof.
  eapply taylor_eq; [apply (taylor_affine s t 0 m1 (j11 (qjac q 0 0)))| |reflexivity|reflexivity].
  intros x y. destruct q as [[[[? ?] [? ?]] [? ?]] [? ?]]. subst m1. cbn. ring.
Qed.
Lemma t12 : taylor (fun x y => j12 (qjac q x y)) s t m1 0.
Proof.
  eapply taylor_eq; [apply (taylor_affine s t m1 0 (j12 (qjac q 0 0)))| |reflexivity|reflexivity].
  intros x y. destruct q as [[[[? ?] [? ?]] [? ?]] [? ?]]. subst m1. cbn. ring.
Qed.
Lemma t21 : taylor (fun x y => j21 (qjac q x y)) s t 0 m2.
Proof.
  eapply taylor_eq; [apply (taylor_affine s t 0 m2 (j21 (qjac q 0 0)))| |reflexivity|reflexivity].
  intros x y. destruct q as [[[[? ?] [? ?]] [? ?]] [? ?]]. subst m2. cbn. ring.
Qed.
Lemma t22 : taylor (fun x y => j22 (qjac q x y)) s t m2 0.
Proof.
  eapply taylor_eq; [apply (taylor_affine s t m2 0 (j22 (qjac q 0 0)))| |reflexivity|reflexivity].
  intros x y. destruct q as [[[[? ?] [? ?]] [? ?]] [? ?]]. subst m2. cbn. ring.
Qed.
Let J := qjac q s t.
Definition Ds := j11 J * m2 - m1 * j21 J.
Definition Dt := m1 * j22 J - j12 J * m2.
Lemma tneg F a b : taylor F s t a b -> taylor (fun x y => - F x y) s t (- a) (- b).
Proof.
  intro T. eapply taylor_eq; [apply (taylor_mult _ _ _ _ _ _ _ _ (taylor_affine s t 0 0 (- (1))) T)| | |]; intros; cbn; ring.
Qed.
Lemma tdet : taylor (fun x y => qdet (qjac q x y)) s t Ds Dt.
Proof.
  eapply taylor_eq; [apply (taylor_plus _ _ _ _ _ _ _ _ (taylor_mult _ _ _ _ _ _ _ _ t11 t22) (tneg _ _ _ (taylor_mult _ _ _ _ _ _ _ _ t12 t21)))| | |].
  - intros x y. unfold qdet. cbn. ring.
  - unfold Ds. subst J. ring.
  - unfold Dt. subst J. ring.
Qed.
End jac_taylor.

Lemma first_value q e n p K c d f1 g1 h1 f2 g2 h2 i : in_unit p -> two e n c d f1 g1 h1 f2 g2 h2 ->
  qjac_inv (qjac q (fst p) (snd p)) = Some K -> (i < 2)%nat ->
  first_on false q e n i p = Ok (g1 (fst p) * f2 (snd p) * jent K 0 i + f1 (fst p) * g2 (snd p) * jent K 1 i).
Proof.
  intros HU [V V0 V1 _ _ _ _ _ _] HK Hi. unfold first_on, with_jac. rewrite HK. unfold shape2, guard.
  rewrite (unit_b_in _ HU), V0. cbn [bind]. rewrite V1. reflexivity.
Qed.

(** ** general cells: the first derivatives are the components of the gradient of
    the shape function on the cell *)
Theorem C35_gradient_quad q e n p : convex q -> in_unit p -> (n < n_dofs D2 e)%nat ->
  exists gx gy, first_on false q e n 0 p = Ok gx /\ first_on false q e n 1 p = Ok gy /\
    cell_gradient q (value_on false e n) p gx gy.
Proof.
  intros HC HU H. destruct (phi2_spec e n H) as [c [d [f1 [g1 [h1 [f2 [g2 [h2 [ij [_ [_ [_ T]]]]]]]]]]]].
  assert (N : ~ qdet (qjac q (fst p) (snd p)) == 0).
  { destruct p as [s t]. pose proof (det_pos q s t HC HU). cbn [fst snd]. lra. }
  destruct (inv_ex _ N) as [K HK].
  pose proof (first_value q e n p K c d f1 g1 h1 f2 g2 h2 0 HU T HK ltac:(lia)) as E0.
  pose proof (first_value q e n p K c d f1 g1 h1 f2 g2 h2 1 HU T HK ltac:(lia)) as E1.
  destruct T as [V _ _ _ _ _ _ TC TD].
  eexists. eexists. split; [apply E0|]. split; [apply E1|].
  eapply (gradient_of_taylor q _ (fun s t => f1 s * f2 t) p _ _ K); auto.
  - intros s t HU'. unfold value_on, shape2, guard. rewrite (unit_b_in _ HU'). cbn [fst snd]. rewrite V. cbn. eexists. split; reflexivity.
  - apply taylor_mult; [apply (taylor_x f1 c); apply TC|apply (taylor_y f2 d); apply TD].
  - cbn [jent]. destruct (TC (fst p)) as [_ [-> _]]. destruct (TD (snd p)) as [_ [-> _]]. ring.
  - cbn [jent]. destruct (TC (fst p)) as [_ [-> _]]. destruct (TD (snd p)) as [_ [-> _]]. ring.
Qed.
Print Assumptions C35_gradient_quad.

(** and the second derivatives are the gradients of the first *)
Theorem C35_hessian_quad q e n p i : convex q -> in_unit p -> (n < n_dofs D2 e)%nat -> (i < 2)%nat ->
  exists gx gy, second_on false q e n i 0 p = Ok gx /\ second_on false q e n i 1 p = Ok gy /\
    cell_gradient q (first_on false q e n i) p gx gy.
Proof.
  intros HC HU H Hi. destruct (phi2_spec e n H) as [c [d [f1 [g1 [h1 [f2 [g2 [h2 [ij [_ [_ [_ T]]]]]]]]]]]].
  destruct p as [s t].
  assert (N : ~ qdet (qjac q s t) == 0) by (pose proof (det_pos q s t HC HU); lra).
  destruct (inv_ex _ N) as [K HK].
  set (Hs := qhess_inv false q s t).
  assert (E : forall j, (j < 2)%nat -> second_on false q e n i j (s, t) =
     Ok (h1 s * f2 t * jent K 0 j * jent K 0 i + g1 s * g2 t * jent K 1 j * jent K 0 i + g1 s * f2 t * hent Hs i j 0 +
         g1 s * g2 t * jent K 0 j * jent K 1 i + f1 s * h2 t * jent K 1 j * jent K 1 i + f1 s * g2 t * hent Hs i j 1)).
  { intros j Hj. unfold second_on, with_jac. cbn [fst snd]. rewrite HK. unfold hess_p2r_request. cbn [bind]. unfold shape2, guard.
    rewrite (unit_b_in _ HU). destruct T as [V V0 V1 V00 V01 V10 V11 _ _]. rewrite V0. cbn [bind]. rewrite V1. cbn [bind].
    rewrite V00. cbn [bind]. rewrite V01. cbn [bind]. rewrite V11. reflexivity. }
  eexists. eexists. split; [apply E; lia|]. split; [apply E; lia|].
  destruct (qjac_inv_ok _ _ HK) as [_ [K1 [K2 [K3 K4]]]].
  pose proof T as T'. destruct T' as [_ _ _ _ _ _ _ TC TD].
  assert (C1 : forall z, f1 z == cub c z) by (intro; apply TC). assert (C2 : forall z, g1 z == cub_x c z) by (intro; apply TC).
  assert (C3 : forall z, h1 z == cub_xx c z) by (intro; apply TC). assert (D1 : forall z, f2 z == cub d z) by (intro; apply TD).
  assert (D2 : forall z, g2 z == cub_x d z) by (intro; apply TD). assert (D3 : forall z, h2 z == cub_xx d z) by (intro; apply TD).
  assert (Tns := taylor_mult _ _ s t _ _ _ _ (taylor_xx g1 c s t C2) (taylor_y f2 d s t D1)).
  assert (Tnt := taylor_mult _ _ s t _ _ _ _ (taylor_x f1 c s t C1) (taylor_yy g2 d s t D2)).
  destruct (taylor_inv _ _ _ _ _ (tdet q s t) N) as [Tin _].
  assert (KV : forall s' t' K', qjac_inv (qjac q s' t') = Some K' ->
     j11 K' == j22 (qjac q s' t') * / qdet (qjac q s' t') /\ j12 K' == - j12 (qjac q s' t') * / qdet (qjac q s' t') /\
     j21 K' == - j21 (qjac q s' t') * / qdet (qjac q s' t') /\ j22 K' == j11 (qjac q s' t') * / qdet (qjac q s' t')).
  { intros s' t' K' HK'. destruct (qjac_inv_ok _ _ HK') as [_ [L1 [L2 [L3 L4]]]].
    unfold Qdiv in L1, L2, L3, L4. rewrite L1, L2, L3, L4. repeat split; reflexivity. }
  assert (Hf : forall s' t', in_unit (s', t') -> exists K', qjac_inv (qjac q s' t') = Some K' /\
     first_on false q e n i (s', t') = Ok (g1 s' * f2 t' * jent K' 0 i + f1 s' * g2 t' * jent K' 1 i)).
  { intros s' t' HU'. assert (N' : ~ qdet (qjac q s' t') == 0) by (pose proof (det_pos q s' t' HC HU'); lra).
    destruct (inv_ex _ N') as [K' HK']. exists K'. split; [auto|].
    apply (first_value q e n (s', t') K' c d f1 g1 h1 f2 g2 h2 i HU' T HK' Hi). }
  destruct i as [|[|i]]; [| |lia].
  - assert (TT := taylor_plus _ _ s t _ _ _ _ (taylor_mult _ _ s t _ _ _ _ Tns (taylor_mult _ _ s t _ _ _ _ (t22 q s t) Tin))
       (taylor_mult _ _ s t _ _ _ _ Tnt (taylor_mult _ _ s t _ _ _ _ (tneg s t _ _ _ (t21 q s t)) Tin))).
    eapply (gradient_of_taylor q _ (fun x y => g1 x * f2 y * (j22 (qjac q x y) * / qdet (qjac q x y)) + f1 x * g2 y * (- j21 (qjac q x y) * / qdet (qjac q x y))) (s, t) _ _ K); auto.
    + intros s' t' HU'. destruct (Hf s' t' HU') as [K' [HK' E']]. eexists. split; [apply E'|]. destruct (KV _ _ _ HK') as [L1 [L2 [L3 L4]]].
      cbn [jent]. rewrite L1, L3. reflexivity.
    + exact TT.
    + cbn [jent hent fst snd]. rewrite K1, K3, C1, C2, C3, D1, D2, D3. unfold Hs, qhess_inv. cbn [sxx txx]. unfold Ds, Dt, qdet in *. field. auto.
    + cbn [jent hent fst snd]. rewrite K1, K2, K3, K4, C1, C2, C3, D1, D2, D3. unfold Hs, qhess_inv. cbn [sxy txy]. unfold Ds, Dt, qdet in *. field. auto.
  - assert (TT := taylor_plus _ _ s t _ _ _ _ (taylor_mult _ _ s t _ _ _ _ Tns (taylor_mult _ _ s t _ _ _ _ (tneg s t _ _ _ (t12 q s t)) Tin))
       (taylor_mult _ _ s t _ _ _ _ Tnt (taylor_mult _ _ s t _ _ _ _ (t11 q s t) Tin))).
    eapply (gradient_of_taylor q _ (fun x y => g1 x * f2 y * (- j12 (qjac q x y) * / qdet (qjac q x y)) + f1 x * g2 y * (j11 (qjac q x y) * / qdet (qjac q x y))) (s, t) _ _ K); auto.
    + intros s' t' HU'. destruct (Hf s' t' HU') as [K' [HK' E']]. eexists. split; [apply E'|]. destruct (KV _ _ _ HK') as [L1 [L2 [L3 L4]]].
      cbn [jent]. rewrite L2, L4. reflexivity.
    + exact TT.
    + cbn [jent hent fst snd]. rewrite K1, K2, K3, K4, C1, C2, C3, D1, D2, D3. unfold Hs, qhess_inv. cbn [sxy txy]. unfold Ds, Dt, qdet in *. field. auto.
    + cbn [jent hent fst snd]. rewrite K2, K4, C1, C2, C3, D1, D2, D3. unfold Hs, qhess_inv. cbn [syy tyy]. unfold Ds, Dt, qdet in *. field. auto.
Qed.
Print Assumptions C35_hessian_quad.

(** ** the gradient is unique, so these theorems determine the values *)
Lemma small_zero x B : 0 <= B -> (forall eps, 0 < eps -> Qabs x <= eps * B) -> x == 0.
Proof.
  intros HB H. destruct (Qeq_dec x 0) as [E|N]; auto. exfalso.
  assert (P : 0 < Qabs x). { pose proof (Qabs_nonneg x). destruct (Qlt_le_dec 0 (Qabs x)) as [L|L]; auto. exfalso. apply N.
    assert (Z : Qabs x <= 0) by lra. apply abs_le in Z. lra. }
  assert (P' : 0 < Qabs x / (2 * (B + 1))) by (apply Qlt_shift_div_l; lra).
  specialize (H _ P'). assert (E : Qabs x == Qabs x / (2 * (B + 1)) * (2 * (B + 1))) by (field; lra).
  set (w := Qabs x / (2 * (B + 1))) in *. rewrite E in H. nra.
Qed.
Theorem C35_gradient_unique q f p gx gy gx' gy' : convex q -> in_unit p ->
  cell_gradient q f p gx gy -> cell_gradient q f p gx' gy' -> gx == gx' /\ gy == gy'.
Proof.
  intros HC HU [v [Ev G]] [v2 [Ev2 G']]. rewrite Ev in Ev2. injection Ev2 as <-. destruct p as [s t].
  assert (N : ~ qdet (qjac q s t) == 0) by (pose proof (det_pos q s t HC HU); lra).
  set (ux := gx - gx'). set (uy := gy - gy'). cbn [fst snd] in *.
  (* along a reference direction *)
  assert (DIR : forall s1 t1, in_unit (s1, t1) -> ((s1 - s) * (t1 - t) == 0) ->
     ux * (j11 (qjac q s t) * (s1 - s) + j12 (qjac q s t) * (t1 - t)) + uy * (j21 (qjac q s t) * (s1 - s) + j22 (qjac q s t) * (t1 - t)) == 0).
  { intros s1 t1 HU1 HZ. set (X := j11 (qjac q s t) * (s1 - s) + j12 (qjac q s t) * (t1 - t)). set (Y := j21 (qjac q s t) * (s1 - s) + j22 (qjac q s t) * (t1 - t)).
    apply (small_zero _ (2 * (Qabs X + Qabs Y))). { pose proof (Qabs_nonneg X). pose proof (Qabs_nonneg Y). lra. }
    intros eps He. destruct (G eps He) as [dl [Hdl D]]. destruct (G' eps He) as [dl' [Hdl' D']].
    set (r := Qmin 1 (Qmin dl dl')). assert (Hr : 0 < r) by (unfold r; repeat apply Q.min_glb_lt; lra).
    assert (R1 : r <= 1) by apply Q.le_min_l. assert (R2 : r <= dl) by (eapply Qle_trans; [apply Q.le_min_r|apply Q.le_min_l]).
    assert (R3 : r <= dl') by (eapply Qle_trans; [apply Q.le_min_r|apply Q.le_min_r]).
    destruct HU as [[U1 U2] [U3 U4]]. destruct HU1 as [[W1 W2] [W3 W4]]. cbn [fst snd] in *.
    set (p' := (s + r * (s1 - s), t + r * (t1 - t))).
    assert (HU' : in_unit p') by (unfold in_unit, p'; cbn [fst snd]; repeat split; nra).
    assert (A1 : Qabs (fst p' - s) <= r).
    { unfold p'. cbn [fst]. setoid_replace (s + r * (s1 - s) - s) with (r * (s1 - s)) by ring. apply abs_le. split; nra. }
    assert (A2 : Qabs (snd p' - t) <= r).
    { unfold p'. cbn [snd]. setoid_replace (t + r * (t1 - t) - t) with (r * (t1 - t)) by ring. apply abs_le. split; nra. }
    destruct (D p' HU') as [w [Ew Dw]]; [lra|lra|]. destruct (D' p' HU') as [w' [Ew' Dw']]; [lra|lra|].
    rewrite Ew in Ew'. injection Ew' as <-. cbn zeta in Dw, Dw'.
    destruct (qmap_expand q s t (r * (s1 - s)) (r * (t1 - t))) as [Q1 Q2].
    assert (Z : r * (s1 - s) * (r * (t1 - t)) == 0) by (setoid_replace (r * (s1 - s) * (r * (t1 - t))) with (r * r * ((s1 - s) * (t1 - t))) by ring; rewrite HZ; ring).
    assert (X1 : fst (qmap q (fst p') (snd p')) - fst (qmap q s t) == r * X).
    { unfold p'. cbn [fst snd]. rewrite Q1, Z. unfold X. ring. }
    assert (Y1 : snd (qmap q (fst p') (snd p')) - snd (qmap q s t) == r * Y).
    { unfold p'. cbn [fst snd]. rewrite Q2, Z. unfold Y. ring. }
    rewrite X1, Y1 in Dw, Dw'.
    assert (S : Qabs (r * (ux * X + uy * Y)) <= eps * (Qabs (r * X) + Qabs (r * Y)) + eps * (Qabs (r * X) + Qabs (r * Y))).
    { setoid_replace (r * (ux * X + uy * Y)) with ((w - v - gx' * (r * X) - gy' * (r * Y)) - (w - v - gx * (r * X) - gy * (r * Y))) by (unfold ux, uy; ring).
      apply abs_sub_le; auto. }
    rewrite !Qabs_Qmult in S. assert (Ar : Qabs r == r) by (apply Qabs_pos; lra). rewrite Ar in S.
    apply (Qmult_le_l _ _ r Hr). eapply Qle_trans; [apply S|]. apply Qle_lteq. right. ring. }
  destruct HU as [[U1 U2] [U3 U4]]. cbn [fst snd] in *.
  assert (HS : exists s1, 0 <= s1 <= 1 /\ ~ s1 - s == 0). { destruct (Qlt_le_dec s 1); [exists 1; split; lra|exists 0; split; lra]. }
  assert (HT : exists t1, 0 <= t1 <= 1 /\ ~ t1 - t == 0). { destruct (Qlt_le_dec t 1); [exists 1; split; lra|exists 0; split; lra]. }
  destruct HS as [s1 [[S1 S2] NS]]. destruct HT as [t1 [[T1 T2] NT]].
  assert (A := DIR s1 t ltac:(unfold in_unit; cbn [fst snd]; repeat split; lra) ltac:(ring)).
  assert (B := DIR s t1 ltac:(unfold in_unit; cbn [fst snd]; repeat split; lra) ltac:(ring)).
  assert (A' : ux * j11 (qjac q s t) + uy * j21 (qjac q s t) == 0).
  { destruct (Qmult_integral (s1 - s) (ux * j11 (qjac q s t) + uy * j21 (qjac q s t))) as [Z|Z]; auto; [|contradiction].
    rewrite <- A. ring. }
  assert (B' : ux * j12 (qjac q s t) + uy * j22 (qjac q s t) == 0).
  { destruct (Qmult_integral (t1 - t) (ux * j12 (qjac q s t) + uy * j22 (qjac q s t))) as [Z|Z]; auto; [|contradiction].
    rewrite <- B. ring. }
  unfold qdet in N. set (a := j11 (qjac q s t)) in *. set (b := j12 (qjac q s t)) in *. set (c := j21 (qjac q s t)) in *. set (d := j22 (qjac q s t)) in *.
  assert (E1 : (a * d - b * c) * ux == 0).
  { setoid_replace ((a * d - b * c) * ux) with (d * (ux * a + uy * c) - c * (ux * b + uy * d)) by ring. rewrite A', B'. ring. }
  assert (E2 : (a * d - b * c) * uy == 0).
  { setoid_replace ((a * d - b * c) * uy) with (a * (ux * b + uy * d) - b * (ux * a + uy * c)) by ring. rewrite A', B'. ring. }
  destruct (Qmult_integral _ _ E1) as [Z|Z]; [contradiction|]. destruct (Qmult_integral _ _ E2) as [Z'|Z']; [contradiction|].
  unfold ux in Z. unfold uy in Z'. split; lra.
Qed.
Print Assumptions C35_gradient_unique.

(** ** axis-aligned rectangles: the short formulas *)
Lemma gradient_ext q f f' p gx gy gx' gy' : in_unit p -> cell_gradient q f p gx gy -> gx' == gx -> gy' == gy ->
  (forall p, in_unit p -> exists v v', f p = Ok v /\ f' p = Ok v' /\ v' == v) -> cell_gradient q f' p gx' gy'.
Proof.
  intros HU [v [Ev G]] Ex Ey E. destruct (E p HU) as [w [w' [Ew [Ew' Eq]]]]. rewrite Ev in Ew. injection Ew as <-.
  exists w'. split; [auto|]. intros eps He. destruct (G eps He) as [dl [Hd D]]. exists dl. split; [auto|].
  intros p' HU' H1 H2. destruct (D p' HU' H1 H2) as [z [Ez B]]. destruct (E p' HU') as [y [y' [Ey1 [Ey2 Eyq]]]].
  rewrite Ez in Ey1. injection Ey1 as <-. exists y'. split; [auto|]. cbn zeta in *. rewrite Eq, Ex, Ey, Eyq. exact B.
Qed.
Lemma aligned_convex q : aligned q -> convex q.
Proof.
  destruct q as [[[[x0 y0] [x1 y1]] [x2 y2]] [x3 y3]]. unfold aligned, convex, orient. cbn [fst snd]. intros [H1 [H2 [H3 [H4 [H5 H6]]]]].
  assert (A : 0 < x1 - x0) by lra. assert (B : 0 < y3 - y0) by lra.
  rewrite <- H1, <- H2, H4, <- H3. assert (P : 0 < (x1 - x0) * (y3 - y0)) by nra. repeat split; nra.
Qed.
Lemma aligned_jac q s t : aligned q -> j12 (qjac q s t) == 0 /\ j21 (qjac q s t) == 0 /\ fst (qmixed q) == 0 /\ snd (qmixed q) == 0.
Proof.
  destruct q as [[[[x0 y0] [x1 y1]] [x2 y2]] [x3 y3]]. unfold aligned. cbn [fst snd qmixed qjac j12 j21]. intros [H1 [H2 [H3 [H4 [H5 H6]]]]].
  rewrite H1, <- H2, <- H3, H4. repeat split; ring.
Qed.
Lemma aligned_first q e n p i : aligned q -> in_unit p -> (n < n_dofs D2 e)%nat -> (i < 2)%nat ->
  exists v v', first_on false q e n i p = Ok v /\ first_on true q e n i p = Ok v' /\ v' == v.
Proof.
  intros HA HU H Hi. pose proof (aligned_convex _ HA) as HC. destruct (phi2_spec e n H) as [c [d [f1 [g1 [h1 [f2 [g2 [h2 [ij [_ [_ [_ T]]]]]]]]]]]].
  destruct p as [s t]. assert (N : ~ qdet (qjac q s t) == 0) by (pose proof (det_pos q s t HC HU); lra).
  destruct (inv_ex _ N) as [K HK]. rewrite (first_value q e n (s, t) K c d f1 g1 h1 f2 g2 h2 i HU T HK Hi).
  unfold first_on, with_jac. cbn [fst snd]. rewrite HK. unfold shape2, guard. rewrite (unit_b_in _ HU).
  destruct T as [_ V0 V1 _ _ _ _ _ _]. destruct (qjac_inv_ok _ _ HK) as [_ [K1 [K2 [K3 K4]]]].
  destruct (aligned_jac q s t HA) as [Z1 [Z2 _]].
  destruct i as [|[|i]]; [| |lia]; [rewrite V0|rewrite V1]; cbn [bind jent fst snd]; eexists; eexists; (split; [reflexivity|]); (split; [reflexivity|]).
  - rewrite K3, Z2. unfold Qdiv. ring.
  - rewrite K2, Z1. unfold Qdiv. ring.
Qed.
Theorem C35_gradient_rectangle q e n p : aligned q -> in_unit p -> (n < n_dofs D2 e)%nat ->
  exists gx gy, first_on true q e n 0 p = Ok gx /\ first_on true q e n 1 p = Ok gy /\
    cell_gradient q (value_on true e n) p gx gy.
Proof.
  intros HA HU H. destruct (C35_gradient_quad q e n p (aligned_convex _ HA) HU H) as [gx [gy [Gx [Gy G]]]].
  destruct (aligned_first q e n p 0 HA HU H ltac:(lia)) as [v0 [w0 [E0 [F0 Q0]]]].
  destruct (aligned_first q e n p 1 HA HU H ltac:(lia)) as [v1 [w1 [E1 [F1 Q1]]]].
  rewrite E0 in Gx. injection Gx as <-. rewrite E1 in Gy. injection Gy as <-.
  exists w0, w1. split; [auto|]. split; [auto|]. eapply gradient_ext; eauto.
  intros p' HU'. unfold value_on, shape2, guard. rewrite (unit_b_in _ HU').
  destruct (phi2_spec e n H) as [c [d [f1 [g1 [h1 [f2 [g2 [h2 [ij [_ [_ [_ [V _ _ _ _ _ _ _ _]]]]]]]]]]]]]. rewrite V.
  eexists. eexists. split; [reflexivity|]. split; reflexivity.
Qed.
Print Assumptions C35_gradient_rectangle.
Theorem C35_hessian_rectangle q e n p i : aligned q -> in_unit p -> (n < n_dofs D2 e)%nat -> (i < 2)%nat ->
  exists gx gy, second_on true q e n i 0 p = Ok gx /\ second_on true q e n i 1 p = Ok gy /\
    cell_gradient q (first_on true q e n i) p gx gy.
Proof.
  intros HA HU H Hi. pose proof (aligned_convex _ HA) as HC. destruct (C35_hessian_quad q e n p i HC HU H Hi) as [gx [gy [Gx [Gy G]]]].
  assert (W : forall j, (j < 2)%nat -> exists v v', second_on false q e n i j p = Ok v /\ second_on true q e n i j p = Ok v' /\ v' == v).
  { intros j Hj. destruct (phi2_spec e n H) as [c [d [f1 [g1 [h1 [f2 [g2 [h2 [ij [_ [_ [_ [_ V0 V1 V00 V01 V10 V11 _ _]]]]]]]]]]]]].
    destruct p as [s t]. assert (N : ~ qdet (qjac q s t) == 0) by (pose proof (det_pos q s t HC HU); lra).
    destruct (inv_ex _ N) as [K HK]. destruct (qjac_inv_ok _ _ HK) as [_ [K1 [K2 [K3 K4]]]]. destruct (aligned_jac q s t HA) as [Z1 [Z2 [Z3 Z4]]].
    unfold second_on, with_jac, hess_p2r_request. cbn [fst snd]. rewrite HK. cbn [bind]. unfold shape2, guard. rewrite (unit_b_in _ HU).
    rewrite V0. cbn [bind]. rewrite V1. cbn [bind]. rewrite V00. cbn [bind]. rewrite V01. cbn [bind]. rewrite V11. cbn [bind].
    assert (HZ : forall a b k, hent (qhess_inv false q s t) a b k == 0).
    { intros a b k. unfold qhess_inv, hent. cbn [sxx sxy syy txx txy tyy]. unfold qdet in N.
      destruct k; [destruct a as [|[|a]]; destruct b as [|[|b]]|destruct a as [|[|a]]; destruct b as [|[|b]]];
       cbn [sxx sxy syy txx txy tyy]; rewrite Z3, Z4; field; auto. }
    destruct i as [|[|i]]; [| |lia]; (destruct j as [|[|j]]; [| |lia]); rewrite ?V00, ?V01, ?V10, ?V11; cbn [bind];
     eexists; eexists; (split; [reflexivity|]); (split; [reflexivity|]); rewrite !HZ; cbn [jent fst snd]; rewrite ?K2, ?K3, ?Z1, ?Z2; unfold Qdiv; ring. }
  destruct (W 0%nat ltac:(lia)) as [v0 [w0 [E0 [F0 Q0]]]]. destruct (W 1%nat ltac:(lia)) as [v1 [w1 [E1 [F1 Q1]]]].
  rewrite E0 in Gx. injection Gx as <-. rewrite E1 in Gy. injection Gy as <-.
  exists w0, w1. split; [auto|]. split; [auto|]. eapply gradient_ext; eauto.
  intros p' HU'. apply aligned_first; auto.
Qed.
Print Assumptions C35_hessian_rectangle.

(** ** intervals *)
Lemma unit_b_in1 x : 0 <= x <= 1 -> unit_b x = true.
Proof. intros [A B]. unfold unit_b. rewrite andb_true_iff. split; apply Qle_bool_iff; auto. Qed.
Lemma interval_of_deriv d (f : Q -> res Q) (F : Q -> Q) x g : fst d < snd d -> 0 <= x <= 1 ->
  (forall y, 0 <= y <= 1 -> f y = Ok (F y)) -> (forall y z, y == z -> F y == F z) -> forall g', deriv_at F x g' -> g == ijac_p2r d * g' -> interval_derivative d f x g.
Proof.
  intros Hd Hx Hf HP g' HD Eg. exists (F x). split; [auto|]. intros eps He.
  assert (W : 0 < snd d - fst d) by lra.
  destruct (HD (eps * (snd d - fst d))) as [dl [Hdl B]]; [nra|]. exists dl. split; [auto|]. intros x' Hx' A.
  exists (F x'). split; [auto|]. cbn zeta. specialize (B (x' - x) A).
  assert (E : F (x + (x' - x)) == F x') by (apply HP; ring). rewrite E in B.
  assert (E2 : imap d x' - imap d x == (snd d - fst d) * (x' - x)) by (unfold imap; ring). rewrite E2, Qabs_Qmult.
  assert (Ap : Qabs (snd d - fst d) == snd d - fst d) by (apply Qabs_pos; lra). rewrite Ap, Eg.
  setoid_replace (F x' - F x - ijac_p2r d * g' * ((snd d - fst d) * (x' - x))) with (F x' - F x - g' * (x' - x)).
  - eapply Qle_trans; [apply B|]. apply Qle_lteq. right. ring.
  - unfold ijac_p2r. field. lra.
Qed.
Theorem C35_interval d e n x i j : fst d < snd d -> 0 <= x <= 1 -> (n < n_dofs D1 e)%nat ->
  let J := Some (ijac_p2r d) in
  exists g h, shape1 e n x (V1 i) J true = Ok g /\ shape1 e n x (V2 i j) J true = Ok h /\
    interval_derivative d (fun y => shape1 e n y V0 J true) x g /\
    interval_derivative d (fun y => shape1 e n y (V1 i) J true) x h.
Proof.
  intros Hd Hx H J. destruct (phi1_spec e n H) as [c [f [g [h [_ [F [G [HH E]]]]]]]].
  assert (E1 : forall z, f z == cub c z) by (intro; apply E). assert (E2 : forall z, g z == cub_x c z) by (intro; apply E).
  assert (E3 : forall z, h z == cub_xx c z) by (intro; apply E).
  assert (P1 : forall y z, y == z -> f y == f z). { intros y z Q. rewrite !E1. destruct c as [[[? ?] ?] ?]. unfold cub. rewrite Q. reflexivity. }
  assert (P2 : forall y z, y == z -> g y == g z). { intros y z Q. rewrite !E2. destruct c as [[[? ?] ?] ?]. unfold cub_x. rewrite Q. reflexivity. }
  assert (S0 : forall y, 0 <= y <= 1 -> shape1 e n y V0 J true = Ok (f y)). { intros y Hy. unfold shape1, guard. rewrite (unit_b_in1 y Hy), F. reflexivity. }
  assert (S1 : forall y, 0 <= y <= 1 -> shape1 e n y (V1 i) J true = Ok (ijac_p2r d * g y)). { intros y Hy. unfold shape1, guard. rewrite (unit_b_in1 y Hy), G. reflexivity. }
  exists (ijac_p2r d * g x), (ijac_p2r d * ijac_p2r d * h x). split; [auto|].
  split; [unfold shape1, guard; rewrite (unit_b_in1 x Hx), HH; reflexivity|]. split.
  - eapply (interval_of_deriv d _ f x _ Hd Hx S0 P1 (g x)); [|reflexivity].
    apply (deriv_cub f c 1); [intro; rewrite E1; ring|rewrite E2; ring].
  - eapply (interval_of_deriv d _ (fun y => ijac_p2r d * g y) x _ Hd Hx S1).
    + intros y z Q. rewrite (P2 y z Q). reflexivity.
    + apply (deriv_cub_x _ c (ijac_p2r d)); [intro; rewrite E2; reflexivity|reflexivity].
    + rewrite E3. ring.
Qed.
Print Assumptions C35_interval.

(** ** what raises *)
Theorem C35_missing_raises e n p K rect i j :
  (shape2 e n p (V1 i) None None (Some rect) = Err AssertionError) /\
  (shape2 e n p (V2 i j) (Some K) None (Some rect) = Err AssertionError) /\
  (shape2 e n p (V2 i j) None None (Some rect) = Err AssertionError) /\
  (~ in_unit p -> forall der J H c, shape2 e n p der J H c = Err AssertionError).
Proof.
  unfold shape2, guard. destruct (unit_b (fst p) && unit_b (snd p)) eqn:U; repeat split; auto.
  intro N. exfalso. apply N. unfold unit_b in U. rewrite !andb_true_iff in U. destruct U as [[A B] [C D]].
  apply Qle_bool_iff in A, B, C, D. split; auto.
Qed.
Print Assumptions C35_missing_raises.

(** ** findings: the short formulas are also used where they are wrong *)
(** a rectangle whose first vertex is not the south-west one *)
Theorem C35_rectangle_corner_refuted : exists q p, convex q /\ is_rectangle q = true /\ in_unit p /\
  exists gx gy, first_on (is_rectangle q) q Q1 0 0 p = Ok gx /\ first_on (is_rectangle q) q Q1 0 1 p = Ok gy /\
    ~ cell_gradient q (value_on (is_rectangle q) Q1 0) p gx gy.
Proof.
  set (q := ((1, 0), (1, 1), (0, 1), (0, 0)) : quad). exists q, (0, 0).
  assert (HC : convex q) by (vm_compute; repeat split; reflexivity).
  assert (HU : in_unit (0, 0)) by (vm_compute; repeat split; discriminate).
  split; [auto|]. split; [vm_compute; reflexivity|]. split; [auto|].
  eexists. eexists. split; [vm_compute; reflexivity|]. split; [vm_compute; reflexivity|]. intro G.
  destruct (C35_gradient_quad q Q1 0 (0, 0) HC HU ltac:(cbn; lia)) as [gx [gy [Gx [Gy G']]]].
  assert (G2 : cell_gradient q (value_on false Q1 0) (0, 0) (0 # 1) (0 # 1)).
  { eapply gradient_ext; [auto|apply G|reflexivity|reflexivity|]. intros p Hp. unfold value_on, shape2, guard.
    rewrite (unit_b_in _ Hp). eexists. eexists. split; [reflexivity|]. split; reflexivity. }
  destruct (C35_gradient_unique _ _ _ _ _ _ _ HC HU G' G2) as [E1 E2]. vm_compute in Gx. injection Gx as <-. vm_compute in E1. discriminate E1.
Qed.
Print Assumptions C35_rectangle_corner_refuted.
(** is_rectangle compares with the absolute tolerance 1e-12, so a small enough
    cell of any form is taken for a rectangle *)
Theorem C35_tiny_cell_refuted : exists q p, convex q /\ is_rectangle q = true /\ ~ parallelogram q /\ in_unit p /\
  exists gx gy, first_on (is_rectangle q) q Q1 0 0 p = Ok gx /\ first_on (is_rectangle q) q Q1 0 1 p = Ok gy /\
    ~ cell_gradient q (value_on (is_rectangle q) Q1 0) p gx gy.
Proof.
  set (z := 1 # 10000000000000). set (q := ((0, 0), (z, 0), (2 * z, 2 * z), (0, z)) : quad). exists q, (0, 1).
  assert (HC : convex q) by (vm_compute; repeat split; reflexivity).
  assert (HU : in_unit (0, 1)) by (vm_compute; repeat split; discriminate).
  split; [auto|]. split; [vm_compute; reflexivity|]. split; [vm_compute; intros [A _]; discriminate A|]. split; [auto|].
  eexists. eexists. split; [vm_compute; reflexivity|]. split; [vm_compute; reflexivity|].
  match goal with |- ~ cell_gradient _ _ _ ?a ?b => set (ga := a); set (gb := b) end. intro G.
  destruct (C35_gradient_quad q Q1 0 (0, 1) HC HU ltac:(cbn; lia)) as [gx [gy [Gx [Gy G']]]].
  assert (G2 : cell_gradient q (value_on false Q1 0) (0, 1) ga gb).
  { eapply gradient_ext; [auto|apply G|reflexivity|reflexivity|]. intros p Hp. unfold value_on, shape2, guard.
    rewrite (unit_b_in _ Hp). eexists. eexists. split; [reflexivity|]. split; reflexivity. }
  destruct (C35_gradient_unique _ _ _ _ _ _ _ HC HU G' G2) as [E1 E2]. vm_compute in Gx. injection Gx as <-. vm_compute in E1. discriminate E1.
Qed.
Print Assumptions C35_tiny_cell_refuted.
Example C35_case : exists gx, first_on false ((0, 0), (2, 0), (1, 1), (0, 1)) Q2 4 0 (1 # 2, 1 # 4) = Ok gx /\
  convex ((0, 0), (2, 0), (1, 1), (0, 1)) /\ exists h, second_on false ((0, 0), (2, 0), (1, 1), (0, 1)) Q2 4 0 1 (1 # 2, 1 # 4) = Ok h /\ ~ h == 0.
Proof.
  eexists. split; [vm_compute; reflexivity|]. split; [vm_compute; repeat split; reflexivity|].
  eexists. split; [vm_compute; reflexivity|]. vm_compute. discriminate.
Qed.

(** Quadrilateral geometry (C20-C23) *)
From Coq Require Import List Arith Bool QArith Qminmax Qabs Lia Lqa Qfield.
Import ListNotations.
From Verif Require Import Tree Forest SpecForest TreeFacts ForestFacts History GenFacts Geom SpecGeom IntervalFacts.
Open Scope Q_scope.

Definition mid := midpoint.
Lemma qchild_0 a b c d : qchild 0 (a, b, c, d) = (a, mid a b, centre (a, b, c, d), mid d a).
Proof. reflexivity. Qed.
Lemma qchild_1 a b c d : qchild 1 (a, b, c, d) = (mid a b, b, mid b c, centre (a, b, c, d)).
Proof. reflexivity. Qed.
Lemma qchild_2 a b c d : qchild 2 (a, b, c, d) = (centre (a, b, c, d), mid b c, c, mid c d).
Proof. reflexivity. Qed.
Lemma qchild_3 a b c d : qchild 3 (a, b, c, d) = (mid d a, centre (a, b, c, d), mid c d, d).
Proof. reflexivity. Qed.
Lemma edges_eq a b c d : edges (a, b, c, d) = [(a, b); (b, c); (c, d); (d, a)].
Proof. reflexivity. Qed.
Lemma child_edges_eq q i : (i < 4)%nat -> child_edges q i = edges (qchild i q).
Proof. destruct q as [[[a b] c] d]. intro H. destruct i as [|[|[|[|i]]]]; try reflexivity. lia. Qed.

Lemma left_of_orient a b p : left_of (a, b) p == orient a b p.
Proof. unfold left_of, orient. cbn [fst snd]. ring. Qed.
Lemma qcontains_iff tol a b c d p : qcontains tol (a, b, c, d) p = true <->
  - tol <= orient a b p /\ - tol <= orient b c p /\ - tol <= orient c d p /\ - tol <= orient d a p.
Proof.
  unfold qcontains. rewrite edges_eq. cbn [forallb].
  rewrite !andb_true_iff, !negb_true_iff, !Qltb_ge, !left_of_orient. tauto.
Qed.
Lemma qcontains_0 q p : qcontains 0 q p = true <-> in_quad q p.
Proof.
  destruct q as [[[a b] c] d]. rewrite qcontains_iff. unfold in_quad.
  assert (Z : forall x, - 0 <= x <-> 0 <= x) by (intro; split; intro; lra). rewrite !Z. tauto.
Qed.

Ltac destr_q q := destruct q as [[[[x0 y0] [x1 y1]] [x2 y2]] [x3 y3]].
Ltac quad_unfold := unfold orient, mid, midpoint, centre in *; cbn [fst snd] in *.

Lemma area_eq a b c d : area (a, b, c, d) ==
  (1 # 2) * ((fst a + fst b) * (snd b - snd a) + (fst b + fst c) * (snd c - snd b) +
             (fst c + fst d) * (snd d - snd c) + (fst d + fst a) * (snd a - snd d)).
Proof. unfold area. rewrite edges_eq. unfold area_of. cbn [fold_left fst snd]. ring. Qed.
Lemma area_orient a b c d : area (a, b, c, d) == (1 # 2) * (orient a b c + orient c d a).
Proof. rewrite area_eq. destruct a, b, c, d. unfold orient. cbn [fst snd]. ring. Qed.
Lemma area_children q :
  area (qchild 0 q) + area (qchild 1 q) + area (qchild 2 q) + area (qchild 3 q) == area q.
Proof.
  destr_q q. rewrite qchild_0, qchild_1, qchild_2, qchild_3, !area_eq. quad_unfold. field.
Qed.
Lemma convex_area q : convex q -> 0 < area q.
Proof. destruct q as [[[a b] c] d]. intros [H1 [H2 [H3 H4]]]. rewrite area_orient. lra. Qed.

Lemma qchild_convex q i : (i < 4)%nat -> convex q -> convex (qchild i q).
Proof.
  intros Hi H. destr_q q. unfold convex in H.
  destruct H as [H1 [H2 [H3 H4]]].
  destruct i as [|[|[|[|i]]]]; [..|lia];
    rewrite ?qchild_0, ?qchild_1, ?qchild_2, ?qchild_3; unfold convex; quad_unfold;
    repeat split; lra.
Qed.

Lemma qchild_cover tol q p : 0 <= tol -> qcontains tol q p = true ->
  exists i, (i < 4)%nat /\ qcontains tol (qchild i q) p = true.
Proof.
  intros Ht H. destr_q q. destruct p as [px py]. rewrite qcontains_iff in H. destruct H as [H1 [H2 [H3 H4]]].
  set (m0 := mid (x0, y0) (x1, y1)). set (m1 := mid (x1, y1) (x2, y2)).
  set (m2 := mid (x2, y2) (x3, y3)). set (m3 := mid (x3, y3) (x0, y0)).
  destruct (Qlt_le_dec (orient m0 m2 (px, py)) 0) as [Ha|Ha];
    destruct (Qlt_le_dec (orient m1 m3 (px, py)) 0) as [Hb|Hb]; unfold m0, m1, m2, m3 in Ha, Hb;
    [exists 2%nat|exists 1%nat|exists 3%nat|exists 0%nat];
    (split; [lia|]); rewrite ?qchild_0, ?qchild_1, ?qchild_2, ?qchild_3, qcontains_iff; quad_unfold;
    repeat split; lra.
Qed.

(** a function that is affine and nonnegative at the vertices of a convex
    quadrilateral is nonnegative on it *)
Lemma bary a b c p u v :
  orient a b c * orient u v p ==
  orient b c p * orient u v a + orient c a p * orient u v b + orient a b p * orient u v c.
Proof. destruct a, b, c, p, u, v. unfold orient. cbn [fst snd]. ring. Qed.
Lemma bary_sum a b c p : orient b c p + orient c a p + orient a b p == orient a b c.
Proof. destruct a, b, c, p. unfold orient. cbn [fst snd]. ring. Qed.
Lemma mulpos x y : 0 < x -> 0 <= x * y -> 0 <= y.
Proof. intros H1 H2. destruct (Qlt_le_dec y 0) as [L|L]; auto. exfalso. nra. Qed.
Lemma mulpos_lt x y : 0 < x -> 0 < x * y -> 0 < y.
Proof. intros H1 H2. destruct (Qlt_le_dec 0 y) as [L|L]; auto. exfalso. nra. Qed.
Lemma orient_rot a b c : orient a b c == orient b c a.
Proof. destruct a, b, c. unfold orient. cbn [fst snd]. ring. Qed.
Lemma orient_swap a b c : orient a b c == - orient b a c.
Proof. destruct a, b, c. unfold orient. cbn [fst snd]. ring. Qed.
Lemma hull q p u v (E : let '(a, b, c, d) := q in
    0 <= orient u v a /\ 0 <= orient u v b /\ 0 <= orient u v c /\ 0 <= orient u v d) :
  convex q -> in_quad q p -> 0 <= orient u v p.
Proof.
  destruct q as [[[a b] c] d]. intros [K1 [K2 [K3 K4]]] [H1 [H2 [H3 H4]]]. destruct E as [E1 [E2 [E3 E4]]].
  destruct (Qlt_le_dec (orient c a p) 0) as [L|L].
  - (* triangle a c d *)
    apply (mulpos (orient a c d)). { rewrite orient_rot; auto. }
    rewrite bary. rewrite (orient_swap a c p).
    assert (0 <= - orient c a p) by lra.
    pose proof (Qmult_le_0_compat _ _ H3 E1). pose proof (Qmult_le_0_compat _ _ H4 E3).
    pose proof (Qmult_le_0_compat _ _ H E4). lra.
  - apply (mulpos (orient a b c)); auto. rewrite bary.
    pose proof (Qmult_le_0_compat _ _ H2 E1). pose proof (Qmult_le_0_compat _ _ L E2).
    pose proof (Qmult_le_0_compat _ _ H1 E3). lra.
Qed.
Lemma hull_strict q p u v (E : let '(a, b, c, d) := q in
    0 < orient u v a /\ 0 < orient u v b /\ 0 < orient u v c /\ 0 < orient u v d) :
  convex q -> in_quad q p -> 0 < orient u v p.
Proof.
  destruct q as [[[a b] c] d]. intros [K1 [K2 [K3 K4]]] [H1 [H2 [H3 H4]]]. destruct E as [E1 [E2 [E3 E4]]].
  assert (P : forall x y z X Y Z, 0 <= x -> 0 <= y -> 0 <= z -> 0 < x + y + z -> 0 < X -> 0 < Y -> 0 < Z ->
     0 < x * X + y * Y + z * Z).
  { intros x y z X Y Z Hx Hy Hz Hs HX HY HZ.
    pose proof (Qmult_le_0_compat x X). pose proof (Qmult_le_0_compat y Y). pose proof (Qmult_le_0_compat z Z).
    destruct (Qlt_le_dec 0 x) as [L|L]; [nra|]. destruct (Qlt_le_dec 0 y) as [L'|L']; [nra|].
    assert (0 < z) by lra. nra. }
  destruct (Qlt_le_dec (orient c a p) 0) as [L|L].
  - apply (mulpos_lt (orient a c d)). { rewrite orient_rot; auto. }
    rewrite bary. assert (HH : 0 <= orient a c p) by (rewrite orient_swap; lra).
    apply P; auto; try lra. rewrite bary_sum. rewrite orient_rot; auto.
  - apply (mulpos_lt (orient a b c)); auto. rewrite bary.
    apply P; auto; try lra. rewrite bary_sum; auto.
Qed.

Lemma in_int_quad q p : in_int q p -> in_quad q p.
Proof. destruct q as [[[a b] c] d]. unfold in_int, in_quad. intuition lra. Qed.

Lemma qchild_inside q i p : (i < 4)%nat -> convex q -> in_quad (qchild i q) p -> in_quad q p.
Proof.
  intros Hi Hc H. pose proof (qchild_convex q i Hi Hc) as Hc'.
  destr_q q. unfold convex in Hc. destruct Hc as [K1 [K2 [K3 K4]]].
  unfold in_quad at 1.
  repeat split; (apply (hull (qchild i (x0, y0, (x1, y1), (x2, y2), (x3, y3))) p); auto);
  destruct i as [|[|[|[|i]]]]; try lia;
    rewrite ?qchild_0, ?qchild_1, ?qchild_2, ?qchild_3 in *; clear H Hc'; quad_unfold; repeat split; lra.
Qed.
Lemma qchild_inside_strict q i p : (i < 4)%nat -> convex q -> in_int (qchild i q) p -> in_int q p.
Proof.
  intros Hi Hc H. pose proof (qchild_convex q i Hi Hc) as Hc'. pose proof (in_int_quad _ _ H) as H'.
  destr_q q. unfold convex in Hc. destruct Hc as [K1 [K2 [K3 K4]]].
  set (q := (x0, y0, (x1, y1), (x2, y2), (x3, y3))) in *.
  cut (0 < orient (x0, y0) (x1, y1) p /\ 0 < orient (x1, y1) (x2, y2) p /\
       0 < orient (x2, y2) (x3, y3) p /\ 0 < orient (x3, y3) (x0, y0) p); [intro Z; exact Z|].
  repeat split;
  destruct i as [|[|[|[|i]]]]; try lia;
    unfold q in *; rewrite ?qchild_0, ?qchild_1, ?qchild_2, ?qchild_3 in *;
    first [ (clear H' Hc'; destruct p; unfold in_int in H; quad_unfold; lra)
          | (eapply (hull_strict _ p); [|exact Hc'|exact H']; clear H H' Hc'; quad_unfold; repeat split; lra) ].
Qed.
Lemma qchild_disjoint q i j p : (i < 4)%nat -> (j < 4)%nat -> i <> j ->
  in_int (qchild i q) p -> ~ in_int (qchild j q) p.
Proof.
  intros Hi Hj N H1 H2. destr_q q. destruct p as [px py].
  destruct i as [|[|[|[|i]]]]; try lia; destruct j as [|[|[|[|j]]]]; try lia;
    rewrite ?qchild_0, ?qchild_1, ?qchild_2, ?qchild_3 in *; unfold in_int in *; quad_unfold; lra.
Qed.

(** reference map *)
Lemma qmap_child q i s t : (i < 4)%nat ->
  peq (qmap (qchild i q) s t)
      (let o := level_pos 0 i (0, 0) in qmap q (fst o + (1 # 2) * s) (snd o + (1 # 2) * t)).
Proof.
  intro Hi. destr_q q. destruct i as [|[|[|[|i]]]]; try lia;
    rewrite ?qchild_0, ?qchild_1, ?qchild_2, ?qchild_3; unfold peq, qmap, mid, midpoint, centre;
    cbv [level_pos fold_left seq Nat.add half_pow sign nth fst snd]; split; ring.
Qed.
Lemma peq_refl p : peq p p. Proof. split; reflexivity. Qed.
Lemma peq_sym p q : peq p q -> peq q p. Proof. intros [H1 H2]; split; symmetry; auto. Qed.
Lemma peq_trans p q r : peq p q -> peq q r -> peq p r.
Proof. intros [H1 H2] [H3 H4]; split; etransitivity; eauto. Qed.
Lemma qmap_compat q s s' t t' : s == s' -> t == t' -> peq (qmap q s t) (qmap q s' t').
Proof. intros E1 E2. destr_q q. unfold peq, qmap. cbn [fst snd]. split; rewrite E1, E2; reflexivity. Qed.

Definition descend (q : quad) (a : list nat) : quad := fold_left (fun q i => qchild i q) a q.
Definition four (a : list nat) : Prop := Forall (fun i => (i < 4)%nat) a.

Lemma level_pos_lin level i r : (i < 4)%nat ->
  peq (level_pos level i r)
      (fst r + half_pow level * fst (level_pos 0 i (0, 0)), snd r + half_pow level * snd (level_pos 0 i (0, 0))).
Proof.
  intro H. destruct i as [|[|[|[|i]]]]; try lia;
   unfold peq, level_pos; cbn [seq Nat.add fold_left fst snd sign nth half_pow];
   replace (level + 1)%nat with (S level) by lia; cbn [half_pow]; split; ring.
Qed.
Lemma rel_pos_map q0 : forall a level q r, four a ->
  (forall s t, peq (qmap q s t) (qmap q0 (fst r + half_pow level * s) (snd r + half_pow level * t))) ->
  forall s t, peq (qmap (descend q a) s t)
    (let o := rel_pos level a r in
     qmap q0 (fst o + half_pow (level + length a) * s) (snd o + half_pow (level + length a) * t)).
Proof.
  induction a as [|i a IH]; intros level q r Ha H s t.
  - simpl. rewrite Nat.add_0_r. apply H.
  - inversion Ha as [|i' a' Hi Ha']; subst. cbn [descend fold_left rel_pos length].
    replace (level + S (length a))%nat with (S level + length a)%nat by lia.
    apply (IH (S level) (qchild i q)); auto.
    intros s' t'. eapply peq_trans; [apply qmap_child; auto|]. cbv zeta.
    eapply peq_trans; [apply H|].
    destruct (level_pos_lin level i r Hi) as [E1 E2]. cbn [fst snd] in E1, E2.
    apply qmap_compat; [rewrite E1|rewrite E2]; cbn [half_pow]; ring.
Qed.

(** rectangles *)
Lemma aligned_child q i : (i < 4)%nat -> aligned q -> aligned (qchild i q).
Proof.
  intros Hi H. destr_q q. unfold aligned in H. cbn [fst snd] in H. destruct H as [H1 [H2 [H3 [H4 [H5 H6]]]]].
  destruct i as [|[|[|[|i]]]]; try lia;
    rewrite ?qchild_0, ?qchild_1, ?qchild_2, ?qchild_3; unfold aligned, mid, midpoint, centre; cbn [fst snd];
    repeat split; lra.
Qed.
Lemma aligned_parallelogram q : aligned q -> parallelogram q.
Proof.
  destr_q q. unfold aligned, parallelogram. cbn [fst snd]. intros [H1 [H2 [H3 [H4 [H5 H6]]]]]. split; lra.
Qed.
Lemma aligned_convex q : aligned q -> convex q.
Proof.
  destr_q q. unfold aligned, convex, orient. cbn [fst snd]. intros [H1 [H2 [H3 [H4 [H5 H6]]]]].
  assert (P : 0 < (x1 - x0) * (y3 - y0)).
  { setoid_replace 0 with (0 * 0) by ring. apply Qmult_lt_compat_nonneg; split; lra. }
  assert (E1 : x3 == x0) by lra. assert (E2 : x2 == x1) by lra. assert (E3 : y1 == y0) by lra. assert (E4 : y2 == y3) by lra.
  rewrite E1, E2, E3, E4. repeat split; lra.
Qed.
Lemma sdiv_some a b : ~ b == 0 -> sdiv a b = Some (a / b).
Proof.
  intro H. unfold sdiv. destruct (Qeq_bool b 0) eqn:E; auto. apply Qeq_bool_iff in E. tauto.
Qed.
Lemma sdiv_none a b : b == 0 -> sdiv a b = None.
Proof. intro H. unfold sdiv. apply Qeq_bool_iff in H. rewrite H; auto. Qed.
Lemma rect_roundtrip1 q s t : aligned q -> exists st, rect_inv q (qmap q s t) = Some st /\ peq st (s, t).
Proof.
  destr_q q. unfold aligned. cbn [fst snd]. intros [H1 [H2 [H3 [H4 [H5 H6]]]]].
  unfold rect_inv, qmap. cbn [fst snd].
  rewrite !sdiv_some by lra. eexists. split; [reflexivity|]. unfold peq. cbn [fst snd].
  assert (E1 : x3 == x0) by lra. assert (E2 : x2 == x1) by lra. assert (E3 : y1 == y0) by lra. assert (E4 : y2 == y3) by lra.
  rewrite E1, E2, E3, E4. split; field; lra.
Qed.
Lemma rect_roundtrip2 q p : aligned q -> exists st, rect_inv q p = Some st /\ peq (qmap q (fst st) (snd st)) p.
Proof.
  destr_q q. destruct p as [px py]. unfold aligned. cbn [fst snd]. intros [H1 [H2 [H3 [H4 [H5 H6]]]]].
  unfold rect_inv. cbn [fst snd].
  rewrite !sdiv_some by lra. eexists. split; [reflexivity|]. unfold peq, qmap. cbn [fst snd].
  assert (E1 : x3 == x0) by lra. assert (E2 : x2 == x1) by lra. assert (E3 : y1 == y0) by lra. assert (E4 : y2 == y3) by lra.
  rewrite E1, E2, E3, E4. split; field; lra.
Qed.

(** Newton *)
Lemma clamp_id x : 0 <= x <= 1 -> clamp x == x.
Proof.
  intros [H1 H2]. unfold clamp. rewrite (Q.max_l x 0) by auto. apply Q.min_l; auto.
Qed.
Lemma clamp_range x : 0 <= clamp x <= 1.
Proof.
  unfold clamp. split.
  - apply Q.min_glb; [apply Q.le_max_r|lra].
  - apply Q.le_min_r.
Qed.
Lemma clamp_compat x y : x == y -> clamp x == clamp y.
Proof. intro E. unfold clamp. rewrite E. reflexivity. Qed.

(** on a parallelogram one step from anywhere reaches the preimage *)
Lemma par_det q s t : parallelogram q -> convex q -> 0 < qdet (qjac q s t).
Proof.
  destr_q q. unfold parallelogram, convex, orient, qdet, qjac. cbn [fst snd j11 j12 j21 j22].
  intros [H1 H2] [K1 _].
  assert (E1 : x2 == x1 + x3 - x0) by lra. assert (E2 : y2 == y1 + y3 - y0) by lra.
  rewrite E1, E2 in K1 |- *. lra.
Qed.
Lemma newton_par q p s t s0 t0 : parallelogram q -> convex q -> peq p (qmap q s t) -> in_unit (s, t) ->
  exists st, newton_step q p (s0, t0) = Some st /\ peq st (s, t).
Proof.
  intros HP HC E HU. pose proof (par_det q s0 t0 HP HC) as Hd.
  unfold newton_step. rewrite !sdiv_some by lra. eexists. split; [reflexivity|].
  destruct HU as [U1 U2]. cbn [fst snd] in U1, U2.
  assert (Ed : forall x y, x == y -> 0 <= y <= 1 -> clamp x == y).
  { intros x y Exy Hy. rewrite (clamp_compat x y Exy). apply clamp_id; auto. }
  destr_q q. destruct p as [px py]. unfold parallelogram in HP. unfold peq, qdet, qjac, qmap in *.
  cbn [fst snd j11 j12 j21 j22] in *.
  destruct HP as [H1 H2]. destruct E as [E1 E2].
  assert (X : x2 == x1 + x3 - x0) by lra. assert (Y : y2 == y1 + y3 - y0) by lra.
  rewrite X, Y in Hd. split; apply Ed; auto; rewrite E1, E2; rewrite X, Y; field; lra.
Qed.
Lemma newton_par_iter k q p s t s0 t0 : parallelogram q -> convex q -> peq p (qmap q s t) -> in_unit (s, t) ->
  exists st, newton (S k) q p (s0, t0) = Some st /\ peq st (s, t).
Proof.
  intros HP HC E HU. revert s0 t0. induction k as [|k IH]; intros s0 t0.
  - destruct (newton_par q p s t s0 t0) as [st [E1 E2]]; auto. exists st. cbn [newton]. rewrite E1. auto.
  - destruct (newton_par q p s t s0 t0) as [[s1 t1] [E1 E2]]; auto.
    destruct (IH s1 t1) as [st [E3 E4]]. exists st. split; auto.
    change (newton (S (S k)) q p (s0, t0)) with
      (match newton_step q p (s0, t0) with Some st' => newton (S k) q p st' | None => None end).
    rewrite E1. exact E3.
Qed.
(** the preimage is a fixed point on every quadrilateral *)
Lemma newton_fixed q p s t : ~ qdet (qjac q s t) == 0 -> peq p (qmap q s t) -> in_unit (s, t) ->
  exists st, newton_step q p (s, t) = Some st /\ peq st (s, t).
Proof.
  intros Hd [E1 E2] [U1 U2]. unfold newton_step. rewrite !sdiv_some by auto. eexists. split; [reflexivity|].
  cbn [fst snd] in *. set (D := qdet (qjac q s t)) in *.
  split; cbn [fst snd].
  - rewrite (clamp_compat _ s); [apply clamp_id; auto|]. rewrite E1, E2. field; auto.
  - rewrite (clamp_compat _ t); [apply clamp_id; auto|]. rewrite E1, E2. field; auto.
Qed.

(** determinant *)
Lemma det_bilinear a b c d s t : qdet (qjac (a, b, c, d) s t) ==
  (1 - s) * (1 - t) * orient d a b + s * (1 - t) * orient a b c + s * t * orient b c d + (1 - s) * t * orient c d a.
Proof.
  destruct a, b, c, d. unfold qdet, qjac, orient. cbn [fst snd j11 j12 j21 j22]. ring.
Qed.
Lemma det_pos q s t : convex q -> in_unit (s, t) -> 0 < qdet (qjac q s t).
Proof.
  destruct q as [[[a b] c] d]. intros [K1 [K2 [K3 K4]]] [[S1 S2] [T1 T2]]. cbn [fst snd] in *.
  rewrite det_bilinear.
  set (A := orient d a b) in *. set (B := orient a b c) in *. set (C := orient b c d) in *. set (D := orient c d a) in *.
  (* lower bound by the smallest corner *)
  assert (M : exists m, 0 < m /\ m <= A /\ m <= B /\ m <= C /\ m <= D).
  { exists (Qmin (Qmin A B) (Qmin C D)).
    pose proof (Q.le_min_l (Qmin A B) (Qmin C D)). pose proof (Q.le_min_r (Qmin A B) (Qmin C D)).
    pose proof (Q.le_min_l A B). pose proof (Q.le_min_r A B). pose proof (Q.le_min_l C D). pose proof (Q.le_min_r C D).
    split; [|split; [|split; [|split]]; lra].
    apply Q.min_glb_lt; apply Q.min_glb_lt; auto. }
  destruct M as [m [Mp [MA [MB [MC MD]]]]].
  assert (W1 : 0 <= (1 - s) * (1 - t)) by (apply Qmult_le_0_compat; lra).
  assert (W2 : 0 <= s * (1 - t)) by (apply Qmult_le_0_compat; lra).
  assert (W3 : 0 <= s * t) by (apply Qmult_le_0_compat; lra).
  assert (W4 : 0 <= (1 - s) * t) by (apply Qmult_le_0_compat; lra).
  assert (L : forall w X, 0 <= w -> m <= X -> w * m <= w * X).
  { intros w X Hw HX. rewrite (Qmult_comm w m), (Qmult_comm w X). apply Qmult_le_compat_r; auto. }
  pose proof (L _ _ W1 MA). pose proof (L _ _ W2 MB). pose proof (L _ _ W3 MC). pose proof (L _ _ W4 MD).
  assert (E : (1 - s) * (1 - t) * m + s * (1 - t) * m + s * t * m + (1 - s) * t * m == m) by ring.
  lra.
Qed.
(** injectivity and range of the reference map *)
Lemma qmap_diff q s t s' t' :
  let J := qjac q ((1 # 2) * (s + s')) ((1 # 2) * (t + t')) in
  fst (qmap q s' t') - fst (qmap q s t) == j11 J * (s' - s) + j12 J * (t' - t) /\
  snd (qmap q s' t') - snd (qmap q s t) == j21 J * (s' - s) + j22 J * (t' - t).
Proof. destr_q q. unfold qmap, qjac. cbn [fst snd j11 j12 j21 j22]. split; ring. Qed.
Lemma qmap_inj q s t s' t' : convex q -> in_unit (s, t) -> in_unit (s', t') ->
  peq (qmap q s t) (qmap q s' t') -> s == s' /\ t == t'.
Proof.
  intros HC HU HU' [E1 E2]. destruct (qmap_diff q s t s' t') as [D1 D2].
  assert (HM : in_unit ((1 # 2) * (s + s'), (1 # 2) * (t + t'))).
  { unfold in_unit in *. cbn [fst snd] in *. lra. }
  pose proof (det_pos q _ _ HC HM) as P. unfold qdet in P.
  set (J := qjac q ((1 # 2) * (s + s')) ((1 # 2) * (t + t'))) in *.
  rewrite E1 in D1. rewrite E2 in D2.
  set (h := s' - s) in *. set (k := t' - t) in *.
  assert (Z1 : j11 J * h + j12 J * k == 0) by (rewrite <- D1; ring).
  assert (Z2 : j21 J * h + j22 J * k == 0) by (rewrite <- D2; ring).
  assert (Y1 : (j11 J * j22 J - j12 J * j21 J) * h == 0).
  { setoid_replace ((j11 J * j22 J - j12 J * j21 J) * h) with
      (j22 J * (j11 J * h + j12 J * k) - j12 J * (j21 J * h + j22 J * k)) by ring. rewrite Z1, Z2. ring. }
  assert (Y2 : (j11 J * j22 J - j12 J * j21 J) * k == 0).
  { setoid_replace ((j11 J * j22 J - j12 J * j21 J) * k) with
      (j11 J * (j21 J * h + j22 J * k) - j21 J * (j11 J * h + j12 J * k)) by ring. rewrite Z1, Z2. ring. }
  assert (NZ : ~ (j11 J * j22 J - j12 J * j21 J) == 0) by lra.
  apply Qmult_integral in Y1. apply Qmult_integral in Y2. unfold h, k in *. split; destruct Y1, Y2; try tauto; lra.
Qed.
Lemma orient_affine u v a b c d s t : orient u v (qmap (a, b, c, d) s t) ==
  (1 - s) * (1 - t) * orient u v a + s * (1 - t) * orient u v b + s * t * orient u v c + (1 - s) * t * orient u v d.
Proof. destruct u, v, a, b, c, d. unfold orient, qmap. cbn [fst snd]. ring. Qed.
Lemma qmap_in q s t : convex q -> in_unit (s, t) -> in_quad q (qmap q s t).
Proof.
  destruct q as [[[a b] c] d]. intros [K1 [K2 [K3 K4]]] [[S1 S2] [T1 T2]]. cbn [fst snd] in *.
  assert (W1 : 0 <= (1 - s) * (1 - t)) by (apply Qmult_le_0_compat; lra).
  assert (W2 : 0 <= s * (1 - t)) by (apply Qmult_le_0_compat; lra).
  assert (W3 : 0 <= s * t) by (apply Qmult_le_0_compat; lra).
  assert (W4 : 0 <= (1 - s) * t) by (apply Qmult_le_0_compat; lra).
  assert (Z1 : forall u v, orient u v u == 0) by (intros [] []; unfold orient; cbn; ring).
  assert (Z2 : forall u v, orient u v v == 0) by (intros [] []; unfold orient; cbn; ring).
  assert (P : forall w x, 0 <= w -> 0 < x -> 0 <= w * x) by (intros; apply Qmult_le_0_compat; auto; lra).
  unfold in_quad. rewrite !orient_affine, !Z1, !Z2.
  rewrite (orient_rot a b d), (orient_rot b d a) in *.
  pose proof (P _ _ W1 K4). pose proof (P _ _ W2 K4). pose proof (P _ _ W3 K4). pose proof (P _ _ W4 K4).
  pose proof (P _ _ W1 K1). pose proof (P _ _ W2 K1). pose proof (P _ _ W3 K1). pose proof (P _ _ W4 K1).
  pose proof (P _ _ W1 K2). pose proof (P _ _ W2 K2). pose proof (P _ _ W3 K2). pose proof (P _ _ W4 K2).
  pose proof (P _ _ W1 K3). pose proof (P _ _ W2 K3). pose proof (P _ _ W3 K3). pose proof (P _ _ W4 K3).
  assert (R1 : orient b c a == orient a b c) by (symmetry; apply orient_rot).
  assert (R2 : orient c d b == orient b c d) by (symmetry; apply orient_rot).
  assert (R3 : orient d a c == orient c d a) by (symmetry; apply orient_rot).
  rewrite ?R1, ?R2, ?R3. repeat split; lra.
Qed.

(** Jacobians and Hessian *)
Lemma qmap_expand q s t h k :
  let J := qjac q s t in
  fst (qmap q (s + h) (t + k)) == fst (qmap q s t) + (j11 J * h + j12 J * k) + h * k * fst (qmixed q) /\
  snd (qmap q (s + h) (t + k)) == snd (qmap q s t) + (j21 J * h + j22 J * k) + h * k * snd (qmixed q).
Proof. destr_q q. unfold qmap, qjac, qmixed. cbn [fst snd j11 j12 j21 j22]. split; ring. Qed.

Lemma qjac_inv_ok J K : qjac_inv J = Some K -> ~ qdet J == 0 /\
  j11 K == j22 J / qdet J /\ j12 K == - j12 J / qdet J /\ j21 K == - j21 J / qdet J /\ j22 K == j11 J / qdet J.
Proof.
  unfold qjac_inv. destruct (Qeq_bool (qdet J) 0) eqn:E.
  - apply Qeq_bool_iff in E. rewrite !(sdiv_none _ _ E). discriminate.
  - assert (N : ~ qdet J == 0) by (intro Z; apply Qeq_bool_iff in Z; congruence).
    rewrite !sdiv_some by auto. intro H. injection H as <-. cbn [j11 j12 j21 j22]. repeat split; auto; reflexivity.
Qed.

(** the quadratic approximation of the inverse map given by its Jacobian and
    Hessian *)
Definition lin (a b dx dy : Q) : Q := a * dx + b * dy.
Definition sqr (a b c dx dy : Q) : Q := (1 # 2) * (a * dx * dx + 2 * b * dx * dy + c * dy * dy).
Lemma hess_residual q s t K H dx dy :
  qjac_inv (qjac q s t) = Some K -> H = qhess_inv false q s t ->
  let d1s := lin (j11 K) (j12 K) dx dy in
  let d1t := lin (j21 K) (j22 K) dx dy in
  let d2s := sqr (sxx H) (sxy H) (syy H) dx dy in
  let d2t := sqr (txx H) (txy H) (tyy H) dx dy in
  let P := qmap q (s + (d1s + d2s)) (t + (d1t + d2t)) in
  fst P - (fst (qmap q s t) + dx) == fst (qmixed q) * (d1s * d2t + d2s * d1t + d2s * d2t) /\
  snd P - (snd (qmap q s t) + dy) == snd (qmixed q) * (d1s * d2t + d2s * d1t + d2s * d2t).
Proof.
  intros EK EH. destruct (qjac_inv_ok _ _ EK) as [N [E1 [E2 [E3 E4]]]]. subst H. cbv zeta.
  destruct (qmap_expand q s t
     (lin (j11 K) (j12 K) dx dy + sqr (sxx (qhess_inv false q s t)) (sxy (qhess_inv false q s t)) (syy (qhess_inv false q s t)) dx dy)
     (lin (j21 K) (j22 K) dx dy + sqr (txx (qhess_inv false q s t)) (txy (qhess_inv false q s t)) (tyy (qhess_inv false q s t)) dx dy))
    as [X1 X2]. rewrite X1, X2. clear X1 X2.
  set (J := qjac q s t) in *. unfold qhess_inv. fold J. cbn [sxx sxy syy txx txy tyy].
  unfold lin, sqr. rewrite E1, E2, E3, E4.
  set (D := qmixed q). destruct D as [Dx Dy]. cbn [fst snd].
  unfold qdet in *. destruct J as [xs xt ys yt]. cbn [j11 j12 j21 j22] in *.
  split; field; exact N.
Qed.
Lemma Qabs_mult_le x y X Y : Qabs x <= X -> Qabs y <= Y -> Qabs (x * y) <= X * Y.
Proof.
  intros H1 H2. rewrite Qabs_Qmult. pose proof (Qabs_nonneg x). pose proof (Qabs_nonneg y).
  apply Qmult_le_compat_nonneg; auto.
Qed.
Lemma Qabs_plus_le x y X Y : Qabs x <= X -> Qabs y <= Y -> Qabs (x + y) <= X + Y.
Proof. intros H1 H2. pose proof (Qabs_triangle x y). lra. Qed.
Lemma lin_bound a b dx dy m : Qabs dx <= m -> Qabs dy <= m -> Qabs (lin a b dx dy) <= (Qabs a + Qabs b) * m.
Proof.
  intros H1 H2. unfold lin. setoid_replace ((Qabs a + Qabs b) * m) with (Qabs a * m + Qabs b * m) by ring.
  apply Qabs_plus_le; apply Qabs_mult_le; auto; apply Qle_refl.
Qed.
Lemma sqr_bound a b c dx dy m : Qabs dx <= m -> Qabs dy <= m ->
  Qabs (sqr a b c dx dy) <= (Qabs a + 2 * Qabs b + Qabs c) * (m * m).
Proof.
  intros H1 H2. unfold sqr.
  assert (B : Qabs (a * dx * dx + 2 * b * dx * dy + c * dy * dy) <= Qabs a * m * m + 2 * Qabs b * m * m + Qabs c * m * m).
  { assert (R : forall x, Qabs x <= Qabs x) by (intro; apply Qle_refl).
    assert (Hb : Qabs (2 * b) <= 2 * Qabs b) by (rewrite Qabs_Qmult; apply Qle_refl).
    repeat first [apply Qabs_plus_le | apply Qabs_mult_le]; auto; try apply Qle_refl. }
  pose proof (Qabs_nonneg (a * dx * dx + 2 * b * dx * dy + c * dy * dy)).
  rewrite Qabs_Qmult. change (Qabs (1 # 2)) with (1 # 2). lra.
Qed.
Lemma cubic_bound D a1 b1 a2 b2 e1 e2 e3 g1 g2 g3 : exists C, forall dx dy m,
  Qabs dx <= m -> Qabs dy <= m -> m <= 1 ->
  Qabs (D * (lin a1 b1 dx dy * sqr g1 g2 g3 dx dy + sqr e1 e2 e3 dx dy * lin a2 b2 dx dy +
             sqr e1 e2 e3 dx dy * sqr g1 g2 g3 dx dy)) <= C * (m * m * m).
Proof.
  set (L1 := Qabs a1 + Qabs b1). set (L2 := Qabs a2 + Qabs b2).
  set (S1 := Qabs e1 + 2 * Qabs e2 + Qabs e3). set (S2 := Qabs g1 + 2 * Qabs g2 + Qabs g3).
  exists (Qabs D * (L1 * S2 + S1 * L2 + S1 * S2)). intros dx dy m H1 H2 Hm.
  assert (M0 : 0 <= m) by (pose proof (Qabs_nonneg dx); lra).
  pose proof (lin_bound a1 b1 dx dy m H1 H2) as B1. fold L1 in B1.
  pose proof (lin_bound a2 b2 dx dy m H1 H2) as B2. fold L2 in B2.
  pose proof (sqr_bound e1 e2 e3 dx dy m H1 H2) as B3. fold S1 in B3.
  pose proof (sqr_bound g1 g2 g3 dx dy m H1 H2) as B4. fold S2 in B4.
  generalize dependent (lin a1 b1 dx dy). generalize dependent (lin a2 b2 dx dy).
  generalize dependent (sqr e1 e2 e3 dx dy). generalize dependent (sqr g1 g2 g3 dx dy).
  intros u4 B4 u3 B3 u2 B2 u1 B1.
  assert (B : Qabs (D * (u1 * u4 + u3 * u2 + u3 * u4)) <=
             Qabs D * (L1 * m * (S2 * (m * m)) + S1 * (m * m) * (L2 * m) + S1 * (m * m) * (S2 * (m * m)))).
  { repeat first [apply Qabs_mult_le | apply Qabs_plus_le]; auto; apply Qle_refl. }
  eapply Qle_trans; [exact B|].
  assert (P1 : 0 <= S1). { unfold S1. pose proof (Qabs_nonneg e1). pose proof (Qabs_nonneg e2). pose proof (Qabs_nonneg e3). lra. }
  assert (P2 : 0 <= S2). { unfold S2. pose proof (Qabs_nonneg g1). pose proof (Qabs_nonneg g2). pose proof (Qabs_nonneg g3). lra. }
  assert (PS : 0 <= S1 * S2) by (apply Qmult_le_0_compat; auto).
  assert (Pm : 0 <= m * m * m) by (repeat apply Qmult_le_0_compat; auto).
  assert (Q4 : S1 * S2 * (m * m * m) * m <= S1 * S2 * (m * m * m) * 1).
  { rewrite (Qmult_comm _ m), (Qmult_comm _ 1). apply Qmult_le_compat_r; auto. apply Qmult_le_0_compat; auto. }
  setoid_replace (Qabs D * (L1 * m * (S2 * (m * m)) + S1 * (m * m) * (L2 * m) + S1 * (m * m) * (S2 * (m * m))))
    with ((L1 * S2 * (m * m * m) + S1 * L2 * (m * m * m) + S1 * S2 * (m * m * m) * m) * Qabs D) by ring.
  setoid_replace (Qabs D * (L1 * S2 + S1 * L2 + S1 * S2) * (m * m * m))
    with ((L1 * S2 * (m * m * m) + S1 * L2 * (m * m * m) + S1 * S2 * (m * m * m) * 1) * Qabs D) by ring.
  apply Qmult_le_compat_r; [lra|apply Qabs_nonneg].
Qed.

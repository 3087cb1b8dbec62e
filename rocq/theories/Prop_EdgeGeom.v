(** * C79: half-edges and line segments *)
From Coq Require Import List Arith Bool QArith Qabs Qminmax Lia Lqa.
From Verif Require Import Tree Forest Geom SpecGeom IntervalFacts QuadGeomFacts EdgeGeom SpecEdgeGeom.
Import ListNotations.
Open Scope Q_scope.

Lemma in01_iff t : in01 t = true <-> 0 <= t <= 1.
Proof.
  unfold in01. rewrite negb_true_iff, Qltb_ge. split.
  - intros H. apply Qabs_Qle_condition in H. lra.
  - intros H. apply Qabs_Qle_condition. lra.
Qed.
Lemma Qle_bool_t a b : Qle_bool a b = true <-> a <= b.
Proof. apply Qle_bool_iff. Qed.
Lemma Qmul_cancel a b c : ~ c == 0 -> a * c == b * c -> a == b.
Proof. intros N E. apply (Qmult_inj_r a b c N). exact E. Qed.
Lemma div_val a b c : ~ c == 0 -> a == b * c -> a / c == b.
Proof. intros N E. rewrite E. field. exact N. Qed.
Lemma div_le1 a b : 0 < b -> 0 <= a -> a <= b -> 0 <= a / b <= 1.
Proof.
  intros B A L. split.
  - apply Qle_shift_div_l; [exact B|]. lra.
  - apply Qle_shift_div_r; [exact B|]. lra.
Qed.

Lemma sqn a : 0 <= a * a.
Proof. destruct (Qlt_le_dec a 0); nra. Qed.
Lemma sqp a : ~ a == 0 -> 0 < a * a.
Proof. intros N. destruct (Q_dec a 0) as [[K|K]|K]; [nra|nra|tauto]. Qed.
Lemma sq2p a b : ~ (a == 0 /\ b == 0) -> 0 < a * a + b * b.
Proof. intros N. assert (A := sqn a). assert (B := sqn b). destruct (Qeq_dec a 0) as [Z|Z]; [assert (C := sqp b ltac:(tauto))|assert (C := sqp a Z)]; lra. Qed.

Lemma ok_true (b : bool) : Ok b = Ok true -> b = true.
Proof. congruence. Qed.

Lemma abs0 d a : a == 0 -> 0 <= d -> Qabs a <= d.
Proof. intros -> H. exact H. Qed.

(** ** two segments *)
Section Two.
Context (px py bx by' qx qy cx cy : Q).
Let h : edge := ((px, py), (bx, by')).
Let l : edge := ((qx, qy), (cx, cy)).
Lemma meet_params : meet h l <-> exists t u, 0 <= t <= 1 /\ 0 <= u <= 1 /\ px + t * (bx - px) == qx + u * (cx - qx) /\ py + t * (by' - py) == qy + u * (cy - qy).
Proof.
  unfold meet, on_segment, at_param, h, l. cbn [fst snd]. split.
  - intros [P [[t [Ht [E1 E2]]] [u [Hu [E3 E4]]]]]. exists t, u. split; [exact Ht|]. split; [exact Hu|]. split; [rewrite <- E1; exact E3|rewrite <- E2; exact E4].
  - intros [t [u [Ht [Hu [E1 E2]]]]]. exists (px + t * (bx - px), py + t * (by' - py)). cbn [fst snd]. split; [exists t|exists u]; repeat split; try apply Ht; try apply Hu; try reflexivity; assumption.
Qed.
Lemma intersects_skew : ~ (bx - px) * (cy - qy) - (by' - py) * (cx - qx) == 0 ->
  let t := ((qx - px) * (cy - qy) - (qy - py) * (cx - qx)) / ((bx - px) * (cy - qy) - (by' - py) * (cx - qx)) in
  let u := ((px - qx) * (by' - py) - (py - qy) * (bx - px)) / ((cx - qx) * (by' - py) - (cy - qy) * (bx - px)) in
  meet h l <-> 0 <= t <= 1 /\ 0 <= u <= 1.
Proof.
  intros N t u. assert (N' : ~ (cx - qx) * (by' - py) - (cy - qy) * (bx - px) == 0) by (intros Z; apply N; lra). rewrite meet_params. split.
  - intros [t' [u' [Ht [Hu [E1 E2]]]]].
    assert (F1 : qx - px == t' * (bx - px) - u' * (cx - qx)) by lra. assert (F2 : qy - py == t' * (by' - py) - u' * (cy - qy)) by lra.
    assert (T : t == t').
    { apply div_val; [exact N|]. rewrite F1, F2. ring. }
    assert (U : u == u').
    { apply div_val; [exact N'|]. setoid_replace (px - qx) with (- (t' * (bx - px) - u' * (cx - qx))) by lra. setoid_replace (py - qy) with (- (t' * (by' - py) - u' * (cy - qy))) by lra. ring. }
    rewrite T, U. split; assumption.
  - intros [Ht Hu]. exists t, u. split; [exact Ht|]. split; [exact Hu|]. unfold t, u. split; field; split; assumption.
Qed.
Lemma intersects_line : ~ (bx - px == 0 /\ by' - py == 0) ->
  (bx - px) * (cy - qy) - (by' - py) * (cx - qx) == 0 -> (qx - px) * (by' - py) - (qy - py) * (bx - px) == 0 ->
  let rr := (bx - px) * (bx - px) + (by' - py) * (by' - py) in
  let t0 := ((qx - px) * (bx - px) + (qy - py) * (by' - py)) / rr in
  let t1 := t0 + ((cx - qx) * (bx - px) + (cy - qy) * (by' - py)) / rr in
  meet h l <-> 0 <= Qmax t0 t1 /\ Qmin t0 t1 <= 1.
Proof.
  intros N C1 C2 rr t0 t1.
  assert (RR : 0 < rr) by (apply sq2p; exact N).
  assert (RN : ~ rr == 0) by lra.
  set (k := ((cx - qx) * (bx - px) + (cy - qy) * (by' - py)) / rr) in *.
  assert (Kr : k * rr == (cx - qx) * (bx - px) + (cy - qy) * (by' - py)) by (unfold k; field; exact RN).
  assert (Tr : t0 * rr == (qx - px) * (bx - px) + (qy - py) * (by' - py)) by (unfold t0; field; exact RN).
  (* the points of l are points of the line *)
  assert (QX : qx - px == t0 * (bx - px)).
  { apply (Qmul_cancel _ _ rr RN). setoid_replace (t0 * (bx - px) * rr) with (t0 * rr * (bx - px)) by ring. rewrite Tr. unfold rr.
    transitivity ((qx - px) * (bx - px) * (bx - px) + (by' - py) * ((qx - px) * (by' - py))); [ring|]. setoid_replace ((qx - px) * (by' - py)) with ((qy - py) * (bx - px)) by lra. ring. }
  assert (QY : qy - py == t0 * (by' - py)).
  { apply (Qmul_cancel _ _ rr RN). setoid_replace (t0 * (by' - py) * rr) with (t0 * rr * (by' - py)) by ring. rewrite Tr. unfold rr.
    transitivity ((qy - py) * (by' - py) * (by' - py) + (bx - px) * ((qy - py) * (bx - px))); [ring|]. setoid_replace ((qy - py) * (bx - px)) with ((qx - px) * (by' - py)) by lra. ring. }
  assert (SX : cx - qx == k * (bx - px)).
  { apply (Qmul_cancel _ _ rr RN). setoid_replace (k * (bx - px) * rr) with (k * rr * (bx - px)) by ring. rewrite Kr. unfold rr.
    transitivity ((cx - qx) * (bx - px) * (bx - px) + (by' - py) * ((by' - py) * (cx - qx))); [ring|]. setoid_replace ((by' - py) * (cx - qx)) with ((bx - px) * (cy - qy)) by lra. ring. }
  assert (SY : cy - qy == k * (by' - py)).
  { apply (Qmul_cancel _ _ rr RN). setoid_replace (k * (by' - py) * rr) with (k * rr * (by' - py)) by ring. rewrite Kr. unfold rr.
    transitivity ((cy - qy) * (by' - py) * (by' - py) + (bx - px) * ((bx - px) * (cy - qy))); [ring|]. setoid_replace ((bx - px) * (cy - qy)) with ((by' - py) * (cx - qx)) by lra. ring. }
  assert (M : meet h l <-> exists u, 0 <= u <= 1 /\ 0 <= t0 + u * k <= 1).
  { rewrite meet_params. split.
    - intros [t [u [Ht [Hu [E1 E2]]]]]. exists u. split; [exact Hu|]. assert (T : t == t0 + u * k).
      { apply (Qmul_cancel _ _ rr RN). unfold rr.
        assert (X1 : t * (bx - px) == (t0 + u * k) * (bx - px)) by (transitivity ((qx - px) + u * (cx - qx)); [lra|]; rewrite QX, SX; ring).
        assert (X2 : t * (by' - py) == (t0 + u * k) * (by' - py)) by (transitivity ((qy - py) + u * (cy - qy)); [lra|]; rewrite QY, SY; ring).
        transitivity (t * (bx - px) * (bx - px) + t * (by' - py) * (by' - py)); [ring|]. rewrite X1, X2. ring. }
      rewrite <- T. exact Ht.
    - intros [u [Hu Ht]]. exists (t0 + u * k), u. split; [exact Ht|]. split; [exact Hu|]. split; [transitivity (px + (t0 * (bx - px) + u * (k * (bx - px))))|transitivity (py + (t0 * (by' - py) + u * (k * (by' - py))))]; try ring; [rewrite <- QX, <- SX|rewrite <- QY, <- SY]; ring. }
  rewrite M. unfold t1. clear - RR. split.
  - intros [u [Hu Ht]]. destruct (Qlt_le_dec k 0) as [K|K].
    + split; [apply Qle_trans with t0; [nra|apply Q.le_max_l]|apply Qle_trans with (t0 + k); [apply Q.le_min_r|nra]].
    + split; [apply Qle_trans with (t0 + k); [nra|apply Q.le_max_r]|apply Qle_trans with t0; [apply Q.le_min_l|nra]].
  - intros [A B]. destruct (Qlt_le_dec t0 0) as [L|L].
    + assert (X : 0 <= t0 + k) by (destruct (Q.max_spec t0 (t0 + k)) as [[_ Q]|[_ Q]]; rewrite Q in A; lra).
      exists (- t0 / k). assert (K : 0 < k) by lra. split; [apply div_le1; lra|]. setoid_replace (t0 + - t0 / k * k) with 0; [lra|]. field. lra.
    + destruct (Qlt_le_dec 1 t0) as [G|G].
      * assert (X : t0 + k <= 1) by (destruct (Q.min_spec t0 (t0 + k)) as [[_ Q]|[_ Q]]; rewrite Q in B; lra).
        exists ((t0 - 1) / (- k)). assert (K : 0 < - k) by lra. split; [apply div_le1; lra|]. setoid_replace (t0 + (t0 - 1) / - k * k) with 1; [lra|]. field. lra.
      * exists 0. split; [lra|]. lra.
Qed.
Lemma intersects_parallel : (bx - px) * (cy - qy) - (by' - py) * (cx - qx) == 0 -> ~ (qx - px) * (by' - py) - (qy - py) * (bx - px) == 0 -> ~ meet h l.
Proof.
  intros C1 C2 M. apply meet_params in M. destruct M as [t [u [_ [_ [E1 E2]]]]]. apply C2.
  assert (F1 : qx - px == t * (bx - px) - u * (cx - qx)) by lra. assert (F2 : qy - py == t * (by' - py) - u * (cy - qy)) by lra.
  rewrite F1, F2. transitivity (u * ((bx - px) * (cy - qy) - (by' - py) * (cx - qx))); [ring|]. rewrite C1. ring.
Qed.
End Two.

(** HalfEdge.intersects_line_segment is True exactly if the segments have a common
    point, if tiny cross products are zero *)
Theorem C79_intersects : forall h l, proper h -> clear_cut h l -> (edge_intersects h l = true <-> meet h l).
Proof.
  intros [[px py] [bx by']] [[qx qy] [cx cy]] P [C1 C2]. unfold edge_intersects, vec, cross, diff, dot, orient, proper, peq in *. cbn [fst snd] in *.
  assert (Hc : (bx - px) * (cy - py) - (by' - py) * (cx - px) - ((bx - px) * (qy - py) - (by' - py) * (qx - px)) == (bx - px) * (cy - qy) - (by' - py) * (cx - qx)) by ring.
  rewrite Hc in C1. clear Hc.
  assert (Hc : (bx - px) * (qy - py) - (by' - py) * (qx - px) == - ((qx - px) * (by' - py) - (qy - py) * (bx - px))) by ring.
  assert (C2' : (qx - px) * (by' - py) - (qy - py) * (bx - px) == 0 \/ tol14 <= Qabs ((qx - px) * (by' - py) - (qy - py) * (bx - px))).
  { destruct C2 as [C2|C2]; [left; lra|right]. rewrite Hc, Qabs_opp in C2. exact C2. }
  clear C2 Hc. assert (T14 : 0 < tol14) by reflexivity.
  destruct (Qltb (Qabs ((bx - px) * (cy - qy) - (by' - py) * (cx - qx))) tol14) eqn:E1.
  - apply Qltb_lt in E1. destruct C1 as [C1|C1]; [|lra].
    destruct (Qltb (Qabs ((qx - px) * (by' - py) - (qy - py) * (bx - px))) tol14) eqn:E2.
    + apply Qltb_lt in E2. destruct C2' as [C2|C2]; [|lra]. rewrite andb_true_iff, !Qle_bool_t. symmetry. apply intersects_line; try assumption. intros [Z1 Z2]. apply P. split; lra.
    + apply Qltb_ge in E2. split; [discriminate|]. intros M. exfalso. apply (intersects_parallel px py bx by' qx qy cx cy C1); [|exact M]. intros Z. rewrite Z in E2. cbn in E2. lra.
  - apply Qltb_ge in E1. rewrite !andb_true_iff, !Qle_bool_t. symmetry. apply intersects_skew. intros Z. rewrite Z in E1. cbn in E1. lra.
Qed.
Print Assumptions C79_intersects.

(** ** cells *)
Lemma edge_of_cell a b c d x : 0 < orient a b c -> 0 < orient d a b -> orient a b x == 0 -> 0 <= orient b c x -> 0 <= orient d a x -> on_segment (a, b) x.
Proof.
  destruct a as [ax ay], b as [bx by'], c as [cx cy], d as [dx dy], x as [x y]. unfold orient, on_segment, at_param. cbn [fst snd]. intros Oc Od Z B D.
  set (rr := (bx - ax) * (bx - ax) + (by' - ay) * (by' - ay)).
  assert (NZ : ~ (bx - ax == 0 /\ by' - ay == 0)) by (intros [Z1 Z2]; rewrite Z1, Z2 in Oc; lra).
  assert (RR : 0 < rr) by (apply sq2p; exact NZ).
  assert (RN : ~ rr == 0) by lra.
  set (t := ((x - ax) * (bx - ax) + (y - ay) * (by' - ay)) / rr).
  assert (Tr : t * rr == (x - ax) * (bx - ax) + (y - ay) * (by' - ay)) by (unfold t; field; exact RN).
  assert (X : x - ax == t * (bx - ax)).
  { apply (Qmul_cancel _ _ rr RN). setoid_replace (t * (bx - ax) * rr) with (t * rr * (bx - ax)) by ring. rewrite Tr. unfold rr.
    transitivity ((x - ax) * (bx - ax) * (bx - ax) + (by' - ay) * ((by' - ay) * (x - ax))); [ring|]. setoid_replace ((by' - ay) * (x - ax)) with ((bx - ax) * (y - ay)) by lra. ring. }
  assert (Y : y - ay == t * (by' - ay)).
  { apply (Qmul_cancel _ _ rr RN). setoid_replace (t * (by' - ay) * rr) with (t * rr * (by' - ay)) by ring. rewrite Tr. unfold rr.
    transitivity ((y - ay) * (by' - ay) * (by' - ay) + (bx - ax) * ((bx - ax) * (y - ay))); [ring|]. setoid_replace ((bx - ax) * (y - ay)) with ((by' - ay) * (x - ax)) by lra. ring. }
  exists t. split; [|split; lra].
  assert (X' : x == ax + t * (bx - ax)) by lra. assert (Y' : y == ay + t * (by' - ay)) by lra.
  assert (B' : 0 <= (1 - t) * ((bx - ax) * (cy - ay) - (by' - ay) * (cx - ax))).
  { setoid_replace ((1 - t) * ((bx - ax) * (cy - ay) - (by' - ay) * (cx - ax))) with ((cx - bx) * (y - by') - (cy - by') * (x - bx)); [exact B|]. rewrite X', Y'. ring. }
  assert (D' : 0 <= t * ((ax - dx) * (by' - dy) - (ay - dy) * (bx - dx))).
  { setoid_replace (t * ((ax - dx) * (by' - dy) - (ay - dy) * (bx - dx))) with ((ax - dx) * (y - dy) - (ay - dy) * (x - dx)); [exact D|]. rewrite X', Y'. ring. }
  split.
  - apply Qnot_lt_le. intros L. nra.
  - apply Qnot_lt_le. intros L. nra.
Qed.
Lemma orient_affine_seg a b l u x : at_param l u x -> orient a b x == (1 - u) * orient a b (fst l) + u * orient a b (snd l).
Proof. destruct a, b, l as [[? ?] [? ?]], x. unfold at_param, orient. cbn [fst snd]. intros [X Y]. rewrite X, Y. ring. Qed.
Lemma on_edge_in_cell a b c d x : convex (a, b, c, d) -> on_segment (a, b) x \/ on_segment (b, c) x \/ on_segment (c, d) x \/ on_segment (d, a) x -> in_quad (a, b, c, d) x.
Proof.
  intros [C1 [C2 [C3 C4]]] H. unfold in_quad.
  assert (Z : forall p q, orient p q p == 0 /\ orient p q q == 0) by (intros [? ?] [? ?]; unfold orient; cbn [fst snd]; split; ring).
  assert (R1 := orient_rot a b c). assert (R2 := orient_rot b c d). assert (R3 := orient_rot c d a). assert (R4 := orient_rot d a b).
  assert (R1' := orient_rot b c a). assert (R2' := orient_rot c d b). assert (R3' := orient_rot d a c). assert (R4' := orient_rot a b d).
  assert (Za := Z a b). assert (Zb := Z b c). assert (Zc := Z c d). assert (Zd := Z d a).
  destruct H as [H|[H|[H|H]]]; destruct H as [t [Ht At]]; rewrite (orient_affine_seg a b _ t x At), (orient_affine_seg b c _ t x At), (orient_affine_seg c d _ t x At), (orient_affine_seg d a _ t x At); cbn [fst snd];
    repeat split; nra.
Qed.
(** walking from a point where all functions are nonnegative to one where some are not *)
Lemma exit : forall L : list (Q * Q), Forall (fun p => 0 <= fst p) L ->
  Forall (fun p => 0 <= snd p) L \/
  exists v, 0 <= v <= 1 /\ Forall (fun p => 0 <= (1 - v) * fst p + v * snd p) L /\ Exists (fun p => (1 - v) * fst p + v * snd p == 0) L.
Proof.
  induction L as [|[A B] L IH]; intros F; [left; constructor|]. apply Forall_cons_iff in F. destruct F as [FA F]. cbn [fst] in FA. destruct (IH F) as [N|[v [Hv [Fv Ev]]]].
  - destruct (Qlt_le_dec B 0) as [K|K]; [|left; constructor; assumption]. right. exists (A / (A - B)).
    assert (V : 0 <= A / (A - B) <= 1) by (apply div_le1; lra). assert (Z : (1 - A / (A - B)) * A + A / (A - B) * B == 0) by (field; lra).
    split; [exact V|]. split; [constructor; [cbn [fst snd]; lra|]|constructor; exact Z].
    apply Forall_forall. intros p I. rewrite Forall_forall in F, N. specialize (F p I). specialize (N p I). cbn beta in F, N. nra.
  - destruct (Qlt_le_dec ((1 - v) * A + v * B) 0) as [K|K].
    + assert (KB : B < 0) by nra. right. exists (A / (A - B)).
      assert (V : 0 <= A / (A - B) <= 1) by (apply div_le1; lra). assert (Z : (1 - A / (A - B)) * A + A / (A - B) * B == 0) by (field; lra).
      set (w := A / (A - B)) in *. assert (W : w <= v) by (apply Qnot_lt_le; intros L'; nra).
      split; [exact V|]. split; [constructor; [cbn [fst snd]; lra|]|constructor; exact Z].
      apply Forall_forall. intros p I. rewrite Forall_forall in F, Fv. specialize (F p I). specialize (Fv p I). cbn beta in F, Fv.
      destruct (Qlt_le_dec (snd p) 0) as [S|S]; nra.
    + right. exists v. split; [exact Hv|]. split; [constructor; assumption|right; exact Ev].
Qed.
Lemma proper_of a b c : 0 < orient a b c -> proper (a, b).
Proof. destruct a, b, c. unfold proper, peq, orient. cbn [fst snd]. intros O [E1 E2]. rewrite E1, E2 in O. lra. Qed.

(** Cell.intersects_line_segment: True exactly if the segment meets the cell, or both of
    its ends are within the tolerance of contains_points *)
Theorem C79_cell_partial : forall tol q l, 0 <= tol -> convex q -> (forall h, In h (edges q) -> clear_cut h l) ->
  (cell_intersects tol q l = true <->
   (exists p, on_segment l p /\ in_quad q p) \/ (qcontains tol q (fst l) = true /\ qcontains tol q (snd l) = true)).
Proof.
  intros tol [[[a b] c] d] l Ht Cv Cl. unfold cell_intersects. rewrite orb_true_iff, andb_true_iff.
  assert (ED : edges (a, b, c, d) = [(a, b); (b, c); (c, d); (d, a)]) by reflexivity.
  destruct (Cv) as [C1 [C2 [C3 C4]]].
  assert (PR : forall h, In h (edges (a, b, c, d)) -> proper h).
  { rewrite ED. intros h [<-|[<-|[<-|[<-|[]]]]]; [apply (proper_of a b c)|apply (proper_of b c d)|apply (proper_of c d a)|apply (proper_of d a b)]; assumption. }
  split.
  - intros [H|H]; [right; exact H|left]. apply existsb_exists in H. destruct H as [h [I E]]. apply (C79_intersects h l (PR h I) (Cl h I)) in E. destruct E as [p [Hh Hl]].
    exists p. split; [exact Hl|]. apply on_edge_in_cell; [exact Cv|]. rewrite ED in I. destruct I as [<-|[<-|[<-|[<-|[]]]]]; tauto.
  - intros [[p [Hl Hq]]|H]; [|left; exact H].
    destruct (qcontains tol (a, b, c, d) (fst l) && qcontains tol (a, b, c, d) (snd l))%bool eqn:E; [left; apply andb_true_iff; exact E|right]. apply existsb_exists.
    assert (OUT : exists w e, (w == 0 \/ w == 1) /\ at_param l w e /\ qcontains tol (a, b, c, d) e = false).
    { apply andb_false_iff in E. destruct E as [E|E]; [exists 0, (fst l)|exists 1, (snd l)]; (split; [auto with qarith|]); (split; [unfold at_param; split; ring|exact E]). }
    destruct OUT as [w [e [Hw [Ae Oe]]]]. destruct Hl as [u [Hu Au]].
    assert (Hw' : 0 <= w <= 1) by (destruct Hw as [-> | ->]; lra).
    set (L := map (fun h : edge => (orient (fst h) (snd h) p, orient (fst h) (snd h) e)) [(a, b); (b, c); (c, d); (d, a)]).
    assert (F : Forall (fun x => 0 <= fst x) L) by (destruct Hq as [H1 [H2 [H3 H4]]]; repeat constructor; assumption).
    destruct (exit L F) as [N|[v [Hv [Fv Ev]]]].
    + exfalso. assert (X : qcontains tol (a, b, c, d) e = true); [|congruence]. unfold qcontains. rewrite ED. apply forallb_forall. intros h I. rewrite negb_true_iff, Qltb_ge.
      destruct h as [h1 h2]. rewrite left_of_orient. rewrite Forall_forall in N. assert (Y := N _ (in_map (fun h : edge => (orient (fst h) (snd h) p, orient (fst h) (snd h) e)) _ _ I)). cbn [fst snd] in Y. lra.
    + set (y := (fst (fst l) + ((1 - v) * u + v * w) * (fst (snd l) - fst (fst l)), snd (fst l) + ((1 - v) * u + v * w) * (snd (snd l) - snd (fst l)))).
      assert (Ay : at_param l ((1 - v) * u + v * w) y) by (split; reflexivity).
      assert (Ly : on_segment l y) by (exists ((1 - v) * u + v * w); split; [nra|exact Ay]).
      assert (Oy : forall f g, orient f g y == (1 - v) * orient f g p + v * orient f g e).
      { intros f g. rewrite (orient_affine_seg f g l _ y Ay), (orient_affine_seg f g l _ p Au), (orient_affine_seg f g l _ e Ae). ring. }
      assert (In4 : 0 <= orient a b y /\ 0 <= orient b c y /\ 0 <= orient c d y /\ 0 <= orient d a y).
      { rewrite !Oy. repeat apply Forall_cons_iff in Fv. destruct Fv as [V1 Fv]. apply Forall_cons_iff in Fv. destruct Fv as [V2 Fv]. apply Forall_cons_iff in Fv. destruct Fv as [V3 Fv]. apply Forall_cons_iff in Fv. destruct Fv as [V4 _].
        cbn [fst snd] in *. tauto. }
      destruct In4 as [I1 [I2 [I3 I4]]].
      assert (On : exists h, In h [(a, b); (b, c); (c, d); (d, a)] /\ on_segment h y).
      { unfold L in Ev. cbn [map] in Ev. repeat rewrite Exists_cons in Ev. cbn [fst snd] in Ev. rewrite <- !Oy in Ev.
        destruct Ev as [Z|[Z|[Z|[Z|Z]]]]; [| | | |inversion Z].
        - exists (a, b). split; [cbn; tauto|]. apply (edge_of_cell a b c d); assumption.
        - exists (b, c). split; [cbn; tauto|]. apply (edge_of_cell b c d a); assumption.
        - exists (c, d). split; [cbn; tauto|]. apply (edge_of_cell c d a b); assumption.
        - exists (d, a). split; [cbn; tauto|]. apply (edge_of_cell d a b c); assumption. }
      destruct On as [h [I On]]. rewrite <- ED in I. exists h. split; [exact I|]. apply (C79_intersects h l (PR h I) (Cl h I)). exists y. split; assumption.
Qed.
Print Assumptions C79_cell_partial.
(** with exact containment: a common point *)
Corollary C79_cell_exact : forall q l, convex q -> (forall h, In h (edges q) -> clear_cut h l) ->
  (cell_intersects 0 q l = true <-> exists p, on_segment l p /\ in_quad q p).
Proof.
  intros q l Cv Cl. rewrite (C79_cell_partial 0 q l (Qle_refl 0) Cv Cl). split; [|tauto]. intros [H|[H _]]; [exact H|].
  exists (fst l). split; [exists 0; split; [lra|split; ring]|apply qcontains_0; exact H].
Qed.
Print Assumptions C79_cell_exact.

(** ** points of a half-edge *)
Lemma qabs_lt a b : Qltb (Qabs a) b = false <-> b <= Qabs a.
Proof. apply Qltb_ge. Qed.
Lemma small_abs a : a == 0 -> Qltb (Qabs a) tol10 = true.
Proof. intros Z. apply Qltb_lt. rewrite Z. reflexivity. Qed.
(** Vertical, horizontal and rising half-edges (longer than the tolerance): all points of the
    segment are recognised *)
Theorem C79_contains_partial : forall h p, on_segment h p ->
  (fst (vec h) == 0 /\ tol10 < Qabs (snd (vec h))) \/ (tol10 < Qabs (fst (vec h)) /\ (snd (vec h) == 0 \/ tol14 <= snd (vec h))) ->
  edge_contains h p = Ok true.
Proof.
  intros [[x0 y0] [x1 y1]] [x y] [t [Ht [X Y]]] H. unfold edge_contains, vec in *. cbn [fst snd] in *.
  assert (T10 : 0 < tol10) by reflexivity. assert (T14 : 0 < tol14) by reflexivity.
  destruct H as [[Z L]|[L [Z|L']]].
  - rewrite (small_abs _ Z). rewrite (proj2 (Qltb_lt _ _) L). assert (N : ~ y1 - y0 == 0) by (intros Q; rewrite Q in L; cbn in L; lra).
    assert (E : (y - y0) / (y1 - y0) == t) by (apply div_val; [exact N|lra]).
    f_equal. apply andb_true_iff. split; [apply in01_iff; rewrite E; exact Ht|]. rewrite negb_true_iff. apply Qltb_ge. rewrite X, Z. setoid_replace (x0 + t * 0 - x0) with 0 by ring. cbn. lra.
  - assert (N : ~ x1 - x0 == 0) by (intros Q; rewrite Q in L; cbn in L; lra). destruct (Qltb (Qabs (x1 - x0)) tol10) eqn:E1; [apply Qltb_lt in E1; lra|].
    assert (E2 : Qltb (y1 - y0) tol14 = true) by (apply Qltb_lt; lra). rewrite E2, (proj2 (Qltb_lt _ _) L).
    assert (E : (x - x0) / (x1 - x0) == t) by (apply div_val; [exact N|lra]).
    f_equal. apply andb_true_iff. split; [apply in01_iff; rewrite E; exact Ht|]. rewrite negb_true_iff. apply Qltb_ge. rewrite Y, Z. setoid_replace (y0 + t * 0 - y0) with 0 by ring. cbn. lra.
  - assert (N : ~ x1 - x0 == 0) by (intros Q; rewrite Q in L; cbn in L; lra). assert (N' : ~ y1 - y0 == 0) by lra. destruct (Qltb (Qabs (x1 - x0)) tol10) eqn:E1; [apply Qltb_lt in E1; lra|].
    assert (E2 : Qltb (y1 - y0) tol14 = false) by (apply Qltb_ge; exact L'). rewrite E2.
    assert (E : (x - x0) / (x1 - x0) == t) by (apply div_val; [exact N|lra]). assert (E' : (y - y0) / (y1 - y0) == t) by (apply div_val; [exact N'|lra]).
    f_equal. apply andb_true_iff. split; [|apply in01_iff; rewrite E'; exact Ht]. rewrite negb_true_iff. apply Qltb_ge. rewrite E, E'. setoid_replace (t - t) with 0 by ring. cbn. lra.
Qed.
Print Assumptions C79_contains_partial.
(** ... and recognised points are near the segment (half-edges that do not fall) *)
Theorem C79_contains_near_partial : forall h p, edge_contains h p = Ok true -> (Qabs (fst (vec h)) < tol10 \/ - tol14 < snd (vec h)) ->
  near_segment (2 * tol10 * (1 + Qabs (fst (vec h)))) h p.
Proof.
  intros [[x0 y0] [x1 y1]] [x y] E H. unfold edge_contains, vec, near_segment in *. cbn [fst snd] in *.
  assert (T10 : 0 < tol10) by reflexivity. assert (T14 : 0 < tol14 /\ tol14 < tol10) by (split; reflexivity).
  assert (A0 := Qabs_nonneg (x1 - x0)).
  destruct (Qltb (Qabs (x1 - x0)) tol10) eqn:E1.
  - apply Qltb_lt in E1. destruct (Qltb tol10 (Qabs (y1 - y0))) eqn:E2; [|discriminate]. apply Qltb_lt in E2. apply ok_true in E. apply andb_true_iff in E. destruct E as [E E']. apply in01_iff in E. rewrite negb_true_iff in E'. apply Qltb_ge in E'.
    assert (N : ~ y1 - y0 == 0) by (intros Q; rewrite Q in E2; cbn in E2; lra).
    exists ((y - y0) / (y1 - y0)). split; [exact E|]. set (t := (y - y0) / (y1 - y0)) in *. split.
    + apply Qabs_Qle_condition. apply Qabs_Qle_condition in E'. assert (V : Qabs (x1 - x0) <= tol10) by lra. apply Qabs_Qle_condition in V. nra.
    + apply abs0; [unfold t; field; exact N|]. nra.
  - apply Qltb_ge in E1. destruct H as [H|H]; [lra|]. destruct (Qltb (y1 - y0) tol14) eqn:E2.
    + apply Qltb_lt in E2. destruct (Qltb tol10 (Qabs (x1 - x0))) eqn:E3; [|discriminate]. apply ok_true in E. apply andb_true_iff in E. destruct E as [E E']. apply in01_iff in E. rewrite negb_true_iff in E'. apply Qltb_ge in E'.
      assert (N : ~ x1 - x0 == 0) by (intros Q; rewrite Q in E1; cbn in E1; lra).
      exists ((x - x0) / (x1 - x0)). split; [exact E|]. set (t := (x - x0) / (x1 - x0)) in *. split.
      * apply abs0; [unfold t; field; exact N|]. nra.
      * apply Qabs_Qle_condition. apply Qabs_Qle_condition in E'. nra.
    + apply Qltb_ge in E2. apply ok_true in E. apply andb_true_iff in E. destruct E as [E' E]. apply in01_iff in E. rewrite negb_true_iff in E'. apply Qltb_ge in E'.
      assert (N : ~ x1 - x0 == 0) by (intros Q; rewrite Q in E1; cbn in E1; lra). assert (N' : ~ y1 - y0 == 0) by lra.
      exists ((y - y0) / (y1 - y0)). split; [exact E|]. set (t := (y - y0) / (y1 - y0)) in *. set (s := (x - x0) / (x1 - x0)) in *. split.
      * setoid_replace (x - (x0 + t * (x1 - x0))) with ((s - t) * (x1 - x0)); [|unfold s; field; exact N]. rewrite Qabs_Qmult. rewrite Qabs_Qminus in E'. nra.
      * apply abs0; [unfold t; field; exact N'|]. nra.
Qed.
Print Assumptions C79_contains_near_partial.
(** Falling half-edges are taken for horizontal: points of the segment are rejected,
    points off it accepted, and the map to the reference interval fails *)
Theorem C79_contains_refuted :
  on_segment ((0, 1), (1, 0)) (1 # 2, 1 # 2) /\ edge_contains ((0, 1), (1, 0)) (1 # 2, 1 # 2) = Ok false /\
  edge_to_reference ((0, 1), (1, 0)) (1 # 2, 1 # 2) = Err AssertionError /\
  edge_contains ((0, 1), (1, 0)) (1 # 2, 1) = Ok true /\ ~ near_segment (1 # 5) ((0, 1), (1, 0)) (1 # 2, 1).
Proof.
  split; [exists (1 # 2); split; [lra|split; cbn; reflexivity]|]. split; [reflexivity|]. split; [reflexivity|]. split; [reflexivity|].
  intros [t [Ht [A B]]]. cbn [fst snd] in A, B. apply Qabs_Qle_condition in A, B. lra.
Qed.
Print Assumptions C79_contains_refuted.

(** ** reference_map and subcell_position *)
Theorem C79_map_partial : forall h t, 0 <= t <= 1 ->
  (isclose (fst (fst h)) (fst (snd h)) = false \/ isclose (snd (fst h)) (snd (snd h)) = false) ->
  edge_contains h (edge_point h t) = Ok true ->
  on_segment h (edge_point h t) /\ exists s, edge_to_reference h (edge_point h t) = Ok s /\ s == t.
Proof.
  intros [[x0 y0] [x1 y1]] t Ht C E. split; [exists t; split; [exact Ht|]; split; cbn; ring|]. unfold edge_to_reference. rewrite E. cbn [bind negb]. cbn [fst snd] in *.
  assert (CL : forall a b, isclose a b = false -> ~ b - a == 0).
  { intros a b H Z. unfold isclose in H. assert (X : Qle_bool (Qabs (a - b)) ((1 # 100000000) + (1 # 100000) * Qabs b) = true); [|congruence]. apply Qle_bool_iff.
    setoid_replace (a - b) with 0 by lra. assert (Y := Qabs_nonneg b). cbn. nra. }
  destruct (isclose x0 x1) eqn:Cx; cbn [negb].
  - destruct C as [C|C]; [discriminate|]. rewrite C. cbn [negb]. eexists. split; [reflexivity|]. cbn [edge_point vec fst snd]. field. exact (CL _ _ C).
  - eexists. split; [reflexivity|]. cbn [edge_point vec fst snd]. field. exact (CL _ _ Cx).
Qed.
Print Assumptions C79_map_partial.
(** points outside of [0, 1] are mapped without complaint *)
Theorem C79_range_refuted : forall h, exists l, edge_to_physical h [5; -3] = Ok l.
Proof. intros h. eexists. reflexivity. Qed.
Print Assumptions C79_range_refuted.
(** the position of a sub-edge is the parameter of its base; the width is the ratio of the lengths *)
Theorem C79_position_partial : forall h sub s0 s1, at_param h s0 (fst sub) -> at_param h s1 (snd sub) -> ~ fst (vec h) == 0 ->
  edge_contains h (fst sub) = Ok true -> edge_contains h (snd sub) = Ok true ->
  exists pos w2, edge_position h sub = Ok (pos, w2) /\ pos == s0 /\ w2 == (s1 - s0) * (s1 - s0).
Proof.
  intros [[x0 y0] [x1 y1]] [[a b] [c d]] s0 s1 [A B] [C D] N E1 E2. unfold edge_position. cbn [fst snd vec] in *. rewrite E1, E2. cbn [bind andb negb].
  destruct (Qeq_bool (x1 - x0) 0) eqn:Q; [apply Qeq_bool_iff in Q; contradiction|].
  do 2 eexists. split; [reflexivity|]. split.
  - rewrite A. field. exact N.
  - unfold dot, vec. cbn [fst snd]. assert (RR : ~ (x1 - x0) * (x1 - x0) + (y1 - y0) * (y1 - y0) == 0).
    { assert (S1 := sqp (x1 - x0) N). assert (S2 := sqn (y1 - y0)). lra. }
    apply div_val; [exact RR|]. rewrite A, B, C, D. ring.
Qed.
Print Assumptions C79_position_partial.
(** half of a vertical half-edge: division by zero *)
Theorem C79_position_refuted : edge_position ((0, 0), (0, 1)) ((0, 0), (0, 1 # 2)) = Err GenericException.
Proof. reflexivity. Qed.
Print Assumptions C79_position_refuted.

Definition unit_square : quad := ((0, 0), (1, 0), (1, 1), (0, 1)).
Example C79_case :
  (edge_intersects ((0, 0), (2, 2)) ((0, 2), (2, 0)) = true /\ edge_intersects ((0, 0), (1, 1)) ((2, 2), (3, 3)) = false /\ edge_intersects ((0, 0), (1, 1)) ((1 # 2, 1 # 2), (3, 3)) = true) /\
  (convex unit_square /\ cell_intersects 0 unit_square ((- (1), 1 # 2), (2, 1 # 2)) = true /\ cell_intersects 0 unit_square ((- (1), 0), (0, 2)) = false) /\
  (exists s, edge_to_reference ((1, 0), (2, 3)) (edge_point ((1, 0), (2, 3)) (1 # 3)) = Ok s /\ s == 1 # 3) /\
  clear_cut ((0, 0), (2, 2)) ((0, 2), (2, 0)).
Proof.
  split; [repeat split; reflexivity|]. split; [repeat split; reflexivity|]. split; [eexists; split; [reflexivity|reflexivity]|].
  split; right; vm_compute; discriminate.
Qed.

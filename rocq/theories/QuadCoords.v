(** * Coordinates of the cells of a mesh under splitting (for C28-C30) *)
From Coq Require Import List Arith Bool Lia QArith Lqa.
From Verif Require Import Tree Forest Geom SpecGeom Dcel Quad SpecForest TreeFacts ForestFacts QuadFacts QuadSplit QuadInv QuadGeomFacts.
Import ListNotations.
Open Scope nat_scope.

(** equality of quadrilaterals, vertex by vertex *)
Definition qeq (q r : quad) : Prop :=
  let '(a, b, c, d) := q in let '(a', b', c', d') := r in peq a a' /\ peq b b' /\ peq c c' /\ peq d d'.
(** the quadrilateral of a list of four half-edges *)
Definition hquad (s : heap) (hs : list nat) : quad :=
  (vx s (B s (nth 0 hs 0)), vx s (B s (nth 1 hs 0)), vx s (B s (nth 2 hs 0)), vx s (B s (nth 3 hs 0))).
Definition cquad (m : mesh2) (p : path) : quad :=
  (vx (hp m) (B (hp m) (side m p 0)), vx (hp m) (B (hp m) (side m p 1)), vx (hp m) (B (hp m) (side m p 2)), vx (hp m) (B (hp m) (side m p 3))).

Lemma qeq_refl q : qeq q q.
Proof. destruct q as [[[a b] c] d]. repeat split; reflexivity. Qed.
Lemma qeq_sym q r : qeq q r -> qeq r q.
Proof. destruct q as [[[a b] c] d], r as [[[a' b'] c'] d']. intros [H1 [H2 [H3 H4]]]. repeat split; symmetry; (apply H1 || apply H2 || apply H3 || apply H4). Qed.
Lemma qeq_trans q r t : qeq q r -> qeq r t -> qeq q t.
Proof.
  destruct q as [[[a b] c] d], r as [[[a' b'] c'] d'], t as [[[a2 b2] c2] d2]. intros [H1 [H2 [H3 H4]]] [K1 [K2 [K3 K4]]].
  split; [eapply peq_tr; eauto|]. split; [eapply peq_tr; eauto|]. split; eapply peq_tr; eauto.
Qed.
Lemma orient_peq a b c a' b' c' : peq a a' -> peq b b' -> peq c c' -> (orient a b c == orient a' b' c')%Q.
Proof. intros [A1 A2] [B1 B2] [C1 C2]. unfold orient. rewrite A1, A2, B1, B2, C1, C2. reflexivity. Qed.
Lemma qeq_area q r : qeq q r -> (area q == area r)%Q.
Proof.
  destruct q as [[[a b] c] d], r as [[[a' b'] c'] d']. intros [H1 [H2 [H3 H4]]]. rewrite !area_orient.
  rewrite (orient_peq a b c a' b' c'), (orient_peq c d a c' d' a') by auto. reflexivity.
Qed.
Lemma qeq_convex q r : qeq q r -> convex q -> convex r.
Proof.
  destruct q as [[[a b] c] d], r as [[[a' b'] c'] d']. intros [H1 [H2 [H3 H4]]] [C1 [C2 [C3 C4]]].
  unfold convex. rewrite <- (orient_peq a b c a' b' c'), <- (orient_peq b c d b' c' d'), <- (orient_peq c d a c' d' a'), <- (orient_peq d a b d' a' b') by auto. auto.
Qed.
Lemma mid_peq a b a' b' : peq a a' -> peq b b' -> peq (midpoint a b) (midpoint a' b').
Proof. intros [A1 A2] [B1 B2]. split; cbn; rewrite ?A1, ?A2, ?B1, ?B2; reflexivity. Qed.
Lemma qeq_child i q r : i < 4 -> qeq q r -> qeq (qchild i q) (qchild i r).
Proof.
  destruct q as [[[a b] c] d], r as [[[a' b'] c'] d']. intros Li [H1 [H2 [H3 H4]]].
  assert (CC : peq (centre (a, b, c, d)) (centre (a', b', c', d'))).
  { destruct H1, H2, H3, H4. split; cbn; rewrite ?H, ?H0, ?H1, ?H2, ?H3, ?H4, ?H5, ?H6; reflexivity. }
  destruct i as [|[|[|[|i]]]]; [| | | |lia]; rewrite ?qchild_0, ?qchild_1, ?qchild_2, ?qchild_3; unfold qeq;
    (split; [|split; [|split]]); auto; apply mid_peq; auto.
Qed.

(** the area of a closed loop of four half-edges *)
Lemma he_area_quad s a b c d : Hd s a = B s b -> Hd s b = B s c -> Hd s c = B s d -> Hd s d = B s a ->
  he_area s [a; b; c; d] = area (hquad s [a; b; c; d]).
Proof. intros H1 H2 H3 H4. unfold he_area, area, hquad. cbn [map nth]. rewrite H1, H2, H3, H4, edges_eq. reflexivity. Qed.

Section KIDS.
Context (s s' : heap) (h0 h1 h2 h3 : nat) (N w : nat).
Local Notation hs := [h0; h1; h2; h3].
Context (I : hinv s')
  (Lh : forall k, k < 4 -> nth k hs 0 < nh s')
  (Lp : forall k, k < 4 -> Hd s' (nth k hs 0) = B s' (nth ((k + 1) mod 4) hs 0))
  (Hk : forall i, i < 4 -> K s' (nth i hs 0) = Some (N + 4 * i, N + 4 * i + 1))
  (Hu : forall i, i < 4 -> B s' (N + 4 * i + 2) = Hd s' (N + 4 * i) /\ Hd s' (N + 4 * i + 2) = w /\
                          B s' (N + 4 * i + 3) = w /\ Hd s' (N + 4 * i + 3) = Hd s' (N + 4 * i))
  (Hw : peq (vx s' w) (centre (hquad s' hs))).

Lemma kid_loop i k : i < 4 -> k < 4 -> Hd s' (nth k (kid_hes N i) 0) = B s' (nth ((k + 1) mod 4) (kid_hes N i) 0).
Proof.
  intros Li Lk.
  destruct (Hu 0 ltac:(lia)) as [u0 [v0 [x0 y0]]]. destruct (Hu 1 ltac:(lia)) as [u1 [v1 [x1 y1]]].
  destruct (Hu 2 ltac:(lia)) as [u2 [v2 [x2 y2]]]. destruct (Hu 3 ltac:(lia)) as [u3 [v3 [x3 y3]]].
  destruct (i_k _ I _ _ _ (Lh 0 ltac:(lia)) (Hk 0 ltac:(lia))) as [_ [_ [_ [_ [a0 [b0 [c0 _]]]]]]].
  destruct (i_k _ I _ _ _ (Lh 1 ltac:(lia)) (Hk 1 ltac:(lia))) as [_ [_ [_ [_ [a1 [b1 [c1 _]]]]]]].
  destruct (i_k _ I _ _ _ (Lh 2 ltac:(lia)) (Hk 2 ltac:(lia))) as [_ [_ [_ [_ [a2 [b2 [c2 _]]]]]]].
  destruct (i_k _ I _ _ _ (Lh 3 ltac:(lia)) (Hk 3 ltac:(lia))) as [_ [_ [_ [_ [a3 [b3 [c3 _]]]]]]].
  pose proof (Lp 0 ltac:(lia)) as l0. pose proof (Lp 1 ltac:(lia)) as l1. pose proof (Lp 2 ltac:(lia)) as l2. pose proof (Lp 3 ltac:(lia)) as l3.
  change ((0 + 1) mod 4) with 1 in l0. change ((1 + 1) mod 4) with 2 in l1. change ((2 + 1) mod 4) with 3 in l2. change ((3 + 1) mod 4) with 0 in l3.
  replace (N + 4 * 0) with N in * by lia. replace (N + 4 * 1) with (N + 4) in * by lia. replace (N + 4 * 2) with (N + 8) in * by lia. replace (N + 4 * 3) with (N + 12) in * by lia.
  rewrite <- !Nat.add_assoc in *. cbn [plus] in *. simpl Nat.add in *. cbn [nth] in *. clear - Li Lk u0 u1 u2 u3 v0 v1 v2 v3 x0 x1 x2 x3 y0 y1 y2 y3 a0 a1 a2 a3 b0 b1 b2 b3 c0 c1 c2 c3 l0 l1 l2 l3.
  destruct i as [|[|[|[|i]]]]; [| | | |exfalso; lia];
    (destruct k as [|[|[|[|k]]]]; [| | | |exfalso; lia]); simpl Nat.modulo; unfold kid_hes; cbn [nth]; congruence.
Qed.
Lemma kid_quad i : i < 4 -> qeq (hquad s' (kid_hes N i)) (qchild i (hquad s' hs)).
Proof.
  intros Li.
  destruct (Hu 0 ltac:(lia)) as [u0 [v0 [x0 y0]]]. destruct (Hu 1 ltac:(lia)) as [u1 [v1 [x1 y1]]].
  destruct (Hu 2 ltac:(lia)) as [u2 [v2 [x2 y2]]]. destruct (Hu 3 ltac:(lia)) as [u3 [v3 [x3 y3]]].
  destruct (i_k _ I _ _ _ (Lh 0 ltac:(lia)) (Hk 0 ltac:(lia))) as [_ [_ [_ [_ [a0 [b0 [c0 [_ [_ M0]]]]]]]]].
  destruct (i_k _ I _ _ _ (Lh 1 ltac:(lia)) (Hk 1 ltac:(lia))) as [_ [_ [_ [_ [a1 [b1 [c1 [_ [_ M1]]]]]]]]].
  destruct (i_k _ I _ _ _ (Lh 2 ltac:(lia)) (Hk 2 ltac:(lia))) as [_ [_ [_ [_ [a2 [b2 [c2 [_ [_ M2]]]]]]]]].
  destruct (i_k _ I _ _ _ (Lh 3 ltac:(lia)) (Hk 3 ltac:(lia))) as [_ [_ [_ [_ [a3 [b3 [c3 [_ [_ M3]]]]]]]]].
  rewrite (Lp 0 ltac:(lia)) in M0. rewrite (Lp 1 ltac:(lia)) in M1. rewrite (Lp 2 ltac:(lia)) in M2. rewrite (Lp 3 ltac:(lia)) in M3.
  change ((0 + 1) mod 4) with 1 in M0. change ((1 + 1) mod 4) with 2 in M1. change ((2 + 1) mod 4) with 3 in M2. change ((3 + 1) mod 4) with 0 in M3.
  replace (N + 4 * 0) with N in * by lia. replace (N + 4 * 1) with (N + 4) in * by lia. replace (N + 4 * 2) with (N + 8) in * by lia. replace (N + 4 * 3) with (N + 12) in * by lia.
  rewrite <- !Nat.add_assoc in *. simpl Nat.add in *. cbn [nth] in *.
  unfold hquad in Hw |- *. cbn [nth] in Hw |- *. set (q := (_, _, _, _)) in Hw.
  destruct i as [|[|[|[|i]]]]; [| | | |exfalso; clear - Li; lia]; rewrite ?qchild_0, ?qchild_1, ?qchild_2, ?qchild_3; unfold kid_hes; cbn [nth];
    unfold mid in *; fold q.
  - rewrite a0, u0, x3, <- b3. split; [apply peq_rfl|]. split; auto.
  - rewrite <- b0, a1, u1, x0. split; auto. split; [apply peq_rfl|]. split; auto.
  - rewrite x1, <- b1, a2, u2. split; auto. split; auto. split; [apply peq_rfl|]. auto.
  - rewrite u3, x2, <- b2, a3. split; auto. split; auto. split; auto. apply peq_rfl.
Qed.
Lemma kid_area i : i < 4 -> (he_area s' (kid_hes N i) == area (qchild i (hquad s' hs)))%Q.
Proof.
  intros Li. rewrite <- (qeq_area _ _ (kid_quad i Li)). pose proof (kid_loop i) as L.
  pose proof (L 0 Li ltac:(lia)) as l0. pose proof (L 1 Li ltac:(lia)) as l1. pose proof (L 2 Li ltac:(lia)) as l2. pose proof (L 3 Li ltac:(lia)) as l3.
  change ((0 + 1) mod 4) with 1 in l0. change ((1 + 1) mod 4) with 2 in l1. change ((2 + 1) mod 4) with 3 in l2. change ((3 + 1) mod 4) with 0 in l3.
  destruct i as [|[|[|[|i]]]]; [| | | |exfalso; clear - Li; lia]; unfold kid_hes in *; cbn [nth] in *; rewrite he_area_quad by auto; reflexivity.
Qed.
End KIDS.

Lemma mean_centre s a b c d : peq (mean (map (vx s) (cell_vertices s [a; b; c; d]))) (centre (hquad s [a; b; c; d])).
Proof. unfold mean, hquad, cell_vertices. cbn [map length nth fold_left]. split; cbn; field. Qed.
Lemma hquad_ext s s' hs : ext s s' -> hinv s -> length hs = 4 -> (forall k, k < 4 -> nth k hs 0 < nh s) -> hquad s' hs = hquad s hs.
Proof.
  intros X I L4 L. unfold hquad. rewrite !(e_b _ _ X) by (apply L; lia). rewrite !(e_vx _ _ X); auto; apply (i_v s I); apply L; lia.
Qed.
Lemma peq_sy a b : peq a b -> peq b a.
Proof. intros [H1 H2]; split; symmetry; auto. Qed.

(** a leaf cell that is convex can be split; the children have the coordinates of C20 *)
Theorem split_coords fl p m : sinv m -> here m p -> (forall i, ~ here m (p ++ [i])) ->
  match cell_split fl p m with
  | Ok m' => (forall i, i < 4 -> qeq (cquad m' (p ++ [i])) (qchild i (cquad m p)) /\ (0 < area (qchild i (cquad m p)))%Q) /\
             (forall q, here m q -> cquad m' q = cquad m q)
  | Err e => e = AssertionError /\ exists i, i < 4 /\ (area (qchild i (cquad m p)) <= 0)%Q
  end.
Proof.
  intros I Hp Lf. apply here_fget in Hp. destruct Hp as [n Fp].
  assert (EI : info (cells m) p = Some (n_data n, length (n_slots n), m_regular (n_meta n))) by (unfold info; rewrite Fp; auto).
  assert (Hp : here m p) by (unfold here; congruence). pose proof (path_nonempty p Hp) as Np.
  destruct (s_cell m I _ _ _ _ EI) as [G [Sl Rg]].
  assert (HC : has_children n None = false).
  { apply has_children_none. intros i k E. apply (Lf i). apply here_fget. exists k. rewrite fget_snoc, Fp by auto. simpl. rewrite E. auto. }
  assert (KN : forall k, k < 4 -> K (hp m) (nth k (n_data n) 0) = None).
  { intros k Lk. rewrite (side_in_data p n k Fp). apply (s_leaf m I); auto. }
  pose proof (cell_split_spec fl p m n (s_h m I) Fp G Sl Rg HC KN) as Q.
  pose proof (cell_split_ok fl p m) as CO. pose proof (split_sinv fl p m) as SS.
  destruct G as [L4 [ND G]].
  assert (CQ : cquad m p = hquad (hp m) (n_data n)) by (unfold cquad, hquad; rewrite !(side_in_data p n _ Fp); auto).
  destruct (n_data n) as [|h0 [|h1 [|h2 [|h3 [|]]]]] eqn:ED; simpl in L4; try lia.
  assert (Lk : forall k, k < 4 -> nth k [h0; h1; h2; h3] 0 < nh (hp m)) by (intros k Lk; apply G; auto).
  assert (Lo : forall k, k < 4 -> Hd (hp m) (nth k [h0; h1; h2; h3] 0) = B (hp m) (nth ((k + 1) mod 4) [h0; h1; h2; h3] 0)) by (intros k Lk'; apply G; auto).
  assert (Gn : forall s', hinv s' -> ext (hp m) s' ->
      (forall i, i < 4 -> K s' (nth i [h0; h1; h2; h3] 0) = Some (nh (hp m) + 4 * i, nh (hp m) + 4 * i + 1)) ->
      (forall i, i < 4 -> B s' (nh (hp m) + 4 * i + 2) = Hd s' (nh (hp m) + 4 * i) /\ Hd s' (nh (hp m) + 4 * i + 2) = nv (hp m) /\
           B s' (nh (hp m) + 4 * i + 3) = nv (hp m) /\ Hd s' (nh (hp m) + 4 * i + 3) = Hd s' (nh (hp m) + 4 * i)) ->
      vx s' (nv (hp m)) = mean (map (vx (hp m)) (cell_vertices (hp m) [h0; h1; h2; h3])) ->
      forall i, i < 4 -> qeq (hquad s' (kid_hes (nh (hp m)) i)) (qchild i (cquad m p)) /\
                         (he_area s' (kid_hes (nh (hp m)) i) == area (qchild i (cquad m p)))%Q).
  { intros s' I' X Ks Us Vs i Li. pose proof (hquad_ext (hp m) s' [h0; h1; h2; h3] X (s_h m I) L4 Lk) as HQ. rewrite CQ, <- HQ.
    assert (A1 : forall k, k < 4 -> nth k [h0; h1; h2; h3] 0 < nh s') by (intros k Lk'; pose proof (Lk k Lk'); pose proof (e_nh _ _ X); lia).
    assert (A2 : forall k, k < 4 -> Hd s' (nth k [h0; h1; h2; h3] 0) = B s' (nth ((k + 1) mod 4) [h0; h1; h2; h3] 0)).
    { intros k Lk'. rewrite (e_h _ _ X), (e_b _ _ X) by auto. auto. }
    assert (A3 : peq (vx s' (nv (hp m))) (centre (hquad s' [h0; h1; h2; h3]))) by (rewrite Vs, HQ; apply mean_centre).
    split; [eapply kid_quad; eauto|eapply kid_area; eauto]. }
  destruct (cell_split fl p m) as [m'|e].
  - destruct (CO m' I eq_refl) as [n' [Fp' [_ [S [_ AR]]]]]. rewrite Fp in Fp'. injection Fp' as <-. rewrite ED in S.
    destruct (SS m' I eq_refl) as [I' [X [_ [_ [Old [Hr Sn]]]]]].
    pose proof (Gn (hp m') (p_inv _ _ _ _ S) X (p_kids _ _ _ _ S)
       ltac:(intros i Li; destruct (p_up _ _ _ _ S i Li) as [_ [_ [_ [_ [_ U]]]]]; exact U) (proj2 (p_vx _ _ _ _ S))) as Gk.
    split.
    + intros i Li. destruct (Gk i Li) as [G1 G2]. split.
      * unfold cquad at 1. rewrite !Sn by auto. exact G1.
      * rewrite <- G2. specialize (AR i Li). unfold Qltb in AR. apply negb_true_iff in AR. apply Qnot_le_lt. intros C. apply Qle_bool_iff in C. congruence.
    + intros q Hq. unfold cquad. rewrite !(side_ext m m') by auto.
      rewrite !(e_b _ _ X) by (apply (side_good I); auto). rewrite !(e_vx _ _ X); auto; apply (i_v _ (s_h m I)); apply (side_good I); auto.
  - destruct Q as [-> [s' [_ [I' [X [Ks [Us [Vs [i [Li AR]]]]]]]]]]. split; auto. exists i. split; auto.
    destruct (Gn s' I' X Ks Us Vs i Li) as [_ G2]. rewrite <- G2. unfold Qltb in AR. apply negb_false_iff in AR. apply Qle_bool_iff. auto.
Qed.
(** convex cells stay convex and can always be split *)
Corollary split_convex fl p m : sinv m -> here m p -> (forall i, ~ here m (p ++ [i])) -> convex (cquad m p) ->
  exists m', cell_split fl p m = Ok m' /\ forall i, i < 4 -> convex (cquad m' (p ++ [i])).
Proof.
  intros I Hp Lf CV. pose proof (split_coords fl p m I Hp Lf) as Q. destruct (cell_split fl p m) as [m'|e].
  - exists m'. split; auto. intros i Li. destruct Q as [Q _]. destruct (Q i Li) as [Q1 _]. eapply qeq_convex; [apply qeq_sym; eauto|]. apply qchild_convex; auto.
  - destruct Q as [_ [i [Li A]]]. pose proof (convex_area _ (qchild_convex _ i Li CV)). exfalso. lra.
Qed.

(** * Points and cells of a quadrilateral mesh (facts for C89) *)
From Coq Require Import List Arith Bool Lia Permutation QArith Lqa Qfield.
From Verif Require Import Tree Forest SpecForest Geom SpecGeom QuadGeomFacts Dcel SpecDcel Quad SpecQuad TreeFacts ForestFacts QuadFacts QuadSplit QuadInv QuadNb DcelFacts QuadInit QuadUniq QuadStart QuadCoords QuadHist Prop_QuadMesh
  Fem SpecFem ShapeFacts Dof SpecDof DofFacts Dof2 SpecDof2 Dof2Hist Basis Solver Nodal Problem2 SpecProblem2 Problem2Facts NodalQ SpecNodalQ.
From Verif Require BinGen RootFacts Prop_Quad.
Import ListNotations.
Open Scope Q_scope.

Lemma orient_peq a b p a' b' : peq a a' -> peq b b' -> orient a b p == orient a' b' p.
Proof. intros [A1 A2] [B1 B2]. unfold orient. rewrite A1, A2, B1, B2. reflexivity. Qed.
Lemma qeq_contains tol q r x : qeq q r -> qcontains tol q x = true -> qcontains tol r x = true.
Proof.
  destruct q as [[[a b] c] d], r as [[[a' b'] c'] d']. intros [A [B [C D]]]. rewrite !qcontains_iff.
  rewrite (orient_peq _ _ x _ _ A B), (orient_peq _ _ x _ _ B C), (orient_peq _ _ x _ _ C D), (orient_peq _ _ x _ _ D A). auto.
Qed.
Lemma within_contains tol q x : qcontains tol q x = true <-> within tol q x.
Proof. destruct q as [[[a b] c] d]. apply qcontains_iff. Qed.
Lemma qeq_parallelogram q r : qeq q r -> parallelogram q -> parallelogram r.
Proof.
  destruct q as [[[[a1 a2] [b1 b2]] [c1 c2]] [d1 d2]], r as [[[[a1' a2'] [b1' b2']] [c1' c2']] [d1' d2']]. unfold qeq, parallelogram, peq. cbn [fst snd].
  intros [[A1 A2] [[B1 B2] [[C1 C2] [D1 D2]]]] [H1 H2]. split; lra.
Qed.
Lemma qchild_parallelogram i q : (i < 4)%nat -> parallelogram q -> parallelogram (qchild i q).
Proof.
  destruct q as [[[[a1 a2] [b1 b2]] [c1 c2]] [d1 d2]]. intros L [H1 H2]. cbn [fst snd] in *.
  destruct i as [|[|[|[|i]]]]; [| | | |lia]; cbn; unfold parallelogram; cbn [fst snd]; split; lra.
Qed.
(** the reference point found is in the unit square *)
Lemma unit_peq x y : peq x y -> in_unit x -> in_unit y.
Proof. destruct x as [x1 x2], y as [y1 y2]. intros [A B] [U V]. cbn [fst snd] in *. split; cbn [fst snd]; lra. Qed.
Lemma find_ref (rect : bool) (q : quad) (p : pt) : parallelogram q -> convex q -> (rect = true -> aligned q) -> in_quad q p ->
  exists st, qmap_inv rect q p = Some st /\ in_unit st /\ peq (qmap q (fst st) (snd st)) p.
Proof.
  intros HP HC HA HI.
  assert (R : exists s t, in_unit (s, t) /\ peq p (qmap q s t)).
  { destruct q as [[[[x0 y0] [x1 y1]] [x2 y2]] [x3 y3]]. destruct p as [px py].
    set (D := (x1 - x0) * (y3 - y0) - (y1 - y0) * (x3 - x0)).
    set (S := (px - x0) * (y3 - y0) - (py - y0) * (x3 - x0)).
    set (T := (x1 - x0) * (py - y0) - (y1 - y0) * (px - x0)).
    destruct HP as [P1 P2]. destruct HC as [K1 [K2 [K3 K4]]]. destruct HI as [I1 [I2 [I3 I4]]].
    cbn [fst snd] in P1, P2. unfold orient in K1, K2, K3, K4, I1, I2, I3, I4; cbn [fst snd] in K1, K2, K3, K4, I1, I2, I3, I4.
    assert (E1 : x2 == x1 + x3 - x0) by lra. assert (E2 : y2 == y1 + y3 - y0) by lra.
    assert (HD : 0 < D). { unfold D. rewrite E1, E2 in K1. lra. }
    assert (HS : 0 <= S / D <= 1).
    { split; [apply Qle_shift_div_l; auto|apply Qle_shift_div_r; auto]; unfold S, D.
      - lra.
      - rewrite E1, E2 in I2. lra. }
    assert (HT : 0 <= T / D <= 1).
    { split; [apply Qle_shift_div_l; auto|apply Qle_shift_div_r; auto]; unfold T, D.
      - lra.
      - rewrite E1, E2 in I3. lra. }
    exists (S / D), (T / D). split; [split; assumption|].
    unfold qmap, peq. cbn [fst snd]. rewrite E1, E2. unfold S, T, D. split; field; unfold D in HD; lra. }
  destruct R as [s [t [U E]]].
  assert (N : exists st, qmap_inv rect q p = Some st /\ (peq st (s, t) \/ peq (qmap q (fst st) (snd st)) p)).
  { destruct rect.
    - destruct (rect_roundtrip2 q p (HA eq_refl)) as [st [A B]]. exists st. auto.
    - destruct (newton_par_iter 4 q p s t (1 # 2) (1 # 2) HP HC E U) as [st [A B]]. exists st. auto. }
  destruct N as [st [A B]]. exists st. split; [exact A|]. destruct B as [B|B].
  - split; [eapply unit_peq; [apply peq_sym; exact B|exact U]|]. destruct st as [s' t']. destruct B as [B1 B2]. cbn [fst snd] in *.
    eapply peq_trans; [apply qmap_compat; [exact B1|exact B2]|]. apply peq_sym. exact E.
  - split; [|exact B]. destruct rect; [|].
    + pose proof (HA eq_refl) as AL. destruct (rect_roundtrip1 q s t AL) as [st1 [R1 R2]].
      (* the explicit inverse respects equality of points *)
      destruct q as [[[[x0 y0] [x1 y1]] [x2 y2]] [x3 y3]]. destruct p as [px py]. unfold aligned in AL. cbn [fst snd] in AL. destruct AL as [H1 [H2 [H3 [H4 [H5 H6]]]]].
      destruct E as [E1 E2]. destruct B as [B1 B2]. destruct st as [s' t']. unfold qmap in E1, E2, B1, B2. cbn [fst snd] in E1, E2, B1, B2.
      assert (F1 : x3 == x0) by lra. assert (F2 : x2 == x1) by lra. assert (F3 : y1 == y0) by lra. assert (F4 : y2 == y3) by lra.
      rewrite E1, F1, F2 in B1. rewrite E2, F3, F4 in B2. assert (X : (s' - s) * (x1 - x0) == 0) by (ring_simplify in B1; ring_simplify; lra).
      assert (Y : (t' - t) * (y3 - y0) == 0) by (ring_simplify in B2; ring_simplify; lra).
      apply Qmult_integral in X. apply Qmult_integral in Y. destruct U as [U1 U2]. cbn [fst snd] in *.
      destruct X as [X|X]; [|exfalso; lra]. destruct Y as [Y|Y]; [|exfalso; lra]. split; cbn [fst snd]; lra.
    + destruct (newton_par_iter 4 q p s t (1 # 2) (1 # 2) HP HC E U) as [st' [A' B']]. assert (Z : Some st = Some st') by (rewrite <- A; exact A'). injection Z as <-.
      eapply unit_peq; [apply peq_sym; exact B'|exact U].
Qed.

Section Mesh.
Context {pts : list pt} {faces : list (list nat)} {m0 m : mesh2} (H : mesh_history pts faces m0 m) (GF : good_faces pts faces) (PF : par_faces pts faces).
Context (tol : Q) (HT : 0 <= tol) (sf : option flag) (HR : submesh_rooted (cells m) sf).
Lemma shape_par p q : shape_is m p q -> parallelogram q.
Proof.
  intros S. pose proof (shape_quad p q S) as ->. destruct S as [c [_ [_ [_ [_ [E _]]]]]].
  assert (Hp : here m p) by (apply here_fget; eauto). rewrite (cell_quad_cquad H p Hp). pose proof (history_minv _ _ _ _ H) as M. pose proof (m_s _ _ _ M) as I. clear c E.
  induction p as [|i p IH] using rev_ind; [destruct (path_nonempty [] Hp); auto|]. destruct p as [|a p].
  - change ([] ++ [i]) with [i] in *. destruct (root_quad H i Hp) as [fc [If ->]]. apply (PF fc If).
  - assert (Na : a :: p <> []) by congruence. destruct (s_fam m I _ i Na Hp) as [Li _]. eapply qeq_parallelogram; [apply qeq_sym, (m_kid _ _ _ M); auto|]. apply qchild_parallelogram; [exact Li|].
    apply IH. eapply here_parent; eauto.
Qed.
Lemma holds_cell p c x : fget (cells m) p = Some c -> holds2 tol m (n_data c) x = qcontains tol (cell_quad m p) x.
Proof. intros E. rewrite (cell_quad_fget p c E). reflexivity. Qed.
Lemma cover2 p n x : fget (cells m) p = Some n -> fl_ok sf n -> has_children n sf = true -> holds2 tol m (n_data n) x = true ->
  exists i k, nth_error (n_slots n) i = Some (Some k) /\ fl_ok sf k /\ holds2 tol m (n_data k) x = true.
Proof.
  intros E F Hc Hx. pose proof (history_minv _ _ _ _ H) as M. pose proof (m_s _ _ _ M) as I. assert (Hp : here m p) by (apply here_fget; eauto).
  assert (Np : p <> []) by (apply (path_nonempty p Hp)).
  assert (Ek : forall j c, nth_error (n_slots n) j = Some (Some c) <-> fget (cells m) (p ++ [j]) = Some c).
  { intros j c. destruct p as [|a p]; [congruence|]. cbn [app]. change (a :: p ++ [j]) with ((a :: p) ++ [j]). rewrite fget_app, E. cbn [nget]. destruct (nth_error (n_slots n) j) as [[k|]|]; split; intros Q; congruence. }
  apply has_children_fl in Hc. destruct Hc as [i0 [k0 [E0 F0]]].
  assert (H0 : here m (p ++ [i0])) by (apply here_fget; exists k0; apply Ek, E0). destruct (s_fam m I p i0 Np H0) as [L0 FA].
  rewrite (holds_cell p n x E), (cell_quad_cquad H p Hp) in Hx. destruct (qchild_cover tol _ x HT Hx) as [i [Li Ii]].
  pose proof (FA i Li) as Hi. pose proof Hi as Hi'. apply here_fget in Hi'. destruct Hi' as [k Ei]. exists i, k. split; [apply Ek; exact Ei|]. split.
  - destruct sf as [g|]; [|exact Logic.I]. destruct HR as [_ [_ HS]].
    unfold fl_ok in F0 |- *. rewrite (@RootFacts.is_marked_at _ (cells m) (p ++ [i]) k g Ei).
    apply (HS p i0 i); auto.
    + rewrite <- (@RootFacts.is_marked_at _ (cells m) (p ++ [i0]) k0 g (proj1 (Ek _ _) E0)). exact F0.
    + unfold present. rewrite Ei. auto.
  - rewrite (holds_cell (p ++ [i]) k x Ei), (cell_quad_cquad H (p ++ [i]) Hi). eapply qeq_contains; [apply qeq_sym, (m_kid _ _ _ M); auto|exact Ii].
Qed.
End Mesh.

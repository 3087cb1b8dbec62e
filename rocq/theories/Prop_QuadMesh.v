(** * C28: half-edges of a mesh of quadrilaterals after any history of splits *)
From Coq Require Import List Arith Bool Lia QArith.
From Verif Require Import Tree Forest Geom SpecGeom Dcel SpecDcel Quad SpecForest TreeFacts ForestFacts QuadFacts QuadSplit QuadInv SpecQuad QuadNb DcelFacts QuadInit QuadUniq QuadStart QuadCoords QuadGeomFacts QuadHist Prop_Dcel GridFacts Prop_Grid.
Import ListNotations.
Open Scope nat_scope.

Definition face_quad (pts : list pt) (fc : list nat) : quad :=
  let v k := nth (nth k fc 0) pts (0, 0)%Q in (v 0, v 1, v 2, v 3).
Definition quad_of (l : list pt) : quad :=
  (nth 0 l (0, 0)%Q, nth 1 l (0, 0)%Q, nth 2 l (0, 0)%Q, nth 3 l (0, 0)%Q).

(** The mesh is built exactly if every face has positive area (counterclockwise
    vertices), otherwise AssertionError; its cells are the faces. *)
Lemma coords_quad m p c : sinv m -> fget (cells m) p = Some c -> quad_of (coords m c) = cquad m p.
Proof. intros I Fp. unfold coords, cell_vertices, quad_of, cquad. rewrite (data_sides I p c Fp). reflexivity. Qed.
Lemma face_edges_area pts faces r fc : quad_faces faces -> nth_error faces r = Some fc ->
  area_of (@face_edges faces pts r) = area (face_quad pts fc).
Proof.
  intros QF E. unfold face_edges, area, face_quad. rewrite edges_eq. unfold fvert. rewrite (nth_error_nth _ _ [] E). reflexivity.
Qed.
Theorem C28_initial pts faces : polygon_mesh (length pts) faces -> quad_faces faces ->
  exists d, determine2 (length pts) faces = Ok d /\
  match mesh_of_dcel false pts d with
  | Ok m => (forall fc, In fc faces -> (0 < area (face_quad pts fc))%Q) /\
      (forall r fc, nth_error faces r = Some fc -> exists c, fget (cells m) [r] = Some c /\
          cell_vertices (hp m) (n_data c) = fc /\ coords m c = verts (face_quad pts fc) /\ n_children c = 4 /\ has_children c None = false) /\
      (forall p c, fget (cells m) p = Some c -> exists r, r < length faces /\ p = [r])
  | Err e => e = AssertionError /\ exists fc, In fc faces /\ (area (face_quad pts fc) <= 0)%Q
  end.
Proof.
  intros PM QF. destruct (C24_half_edges _ _ PM) as [d [Ed _]]. exists d. split; auto.
  pose proof (start_inv (length pts) faces d pts PM QF eq_refl Ed) as S. destruct (mesh_of_dcel false pts d) as [m|e].
  - destruct S as [I [U [C [Hr [Hd' [Sd [_ [_ [Vx [_ Ar]]]]]]]]]]. split; [|split].
    + intros fc If. apply In_nth_error in If. destruct If as [r Er]. assert (Lr : r < length faces) by (apply nth_error_Some; congruence).
      specialize (Ar r Lr). rewrite (face_edges_area pts faces r fc QF Er) in Ar. unfold Qltb in Ar. apply negb_true_iff in Ar.
      apply Qnot_le_lt. intros Z. apply Qle_bool_iff in Z. congruence.
    + intros r fc Er. assert (Lr : r < length faces) by (apply nth_error_Some; congruence).
      pose proof (proj2 (Hr r) Lr) as H. pose proof H as H'. apply here_fget in H'. destruct H' as [c Fc]. exists c. split; auto.
      assert (CV : cell_vertices (hp m) (n_data c) = fc).
      { unfold cell_vertices. rewrite (data_sides I [r] c Fc). cbn [map].
        destruct (Sd r 0 Lr ltac:(lia)) as [-> ->]. destruct (Sd r 1 Lr ltac:(lia)) as [-> ->]. destruct (Sd r 2 Lr ltac:(lia)) as [-> ->]. destruct (Sd r 3 Lr ltac:(lia)) as [-> ->].
        destruct (qf_nth faces r QF Lr) as [_ L4]. unfold fvert. rewrite (nth_error_nth _ _ [] Er) in *.
        destruct fc as [|a [|b [|x [|y [|]]]]]; simpl in L4; try lia. reflexivity. }
      split; auto. split.
      * unfold coords. rewrite CV. unfold face_quad, verts. destruct (qf_nth faces r QF Lr) as [_ L4]. rewrite (nth_error_nth _ _ [] Er) in L4.
        destruct fc as [|a [|b [|x [|y [|]]]]]; simpl in L4; try lia. cbn [map nth]. rewrite !Vx. reflexivity.
      * assert (EI : info (cells m) [r] = Some (n_data c, length (n_slots c), m_regular (n_meta c))) by (unfold info; rewrite Fc; auto).
        destruct (s_cell m I _ _ _ _ EI) as [_ [L4 _]]. split; auto.
        apply has_children_none. intros i k Ei. apply (Hd' r i []). apply here_fget. exists k. change [r; i] with ([r] ++ [i]). rewrite fget_app, Fc. simpl. rewrite Ei. auto.
    + intros p c Fp. assert (Hp : here m p) by (apply here_fget; eauto). destruct p as [|r [|i q]].
      * discriminate.
      * exists r. split; auto. apply Hr; auto.
      * destruct (Hd' r i q Hp).
  - destruct S as [-> [r [Lr Ar]]]. split; auto. destruct (nth_error faces r) as [fc|] eqn:Er; [|apply nth_error_None in Er; lia].
    exists fc. split; [eapply nth_error_In; eauto|]. rewrite (face_edges_area pts faces r fc QF Er) in Ar. unfold Qltb in Ar. apply negb_false_iff in Ar.
    apply Qle_bool_iff. auto.
Qed.
Print Assumptions C28_initial.

(** Every cell is a closed loop of four half-edges that know it. *)
Theorem C28_cells pts faces m0 m p c : mesh_history pts faces m0 m -> fget (cells m) p = Some c ->
  length (n_data c) = 4 /\ NoDup (n_data c) /\ NoDup (cell_vertices (hp m) (n_data c)) /\
  forall k h, is_side m p k h ->
    hcell (he (hp m) h) = Some p /\
    exists n pr, is_side m p ((k + 1) mod 4) n /\ next (he (hp m) h) = Some n /\ hhead (he (hp m) h) = hbase (he (hp m) n) /\
                 is_side m p ((k + 3) mod 4) pr /\ prev (he (hp m) h) = Some pr.
Proof.
  intros H Fp. pose proof (history_minv _ _ _ _ H) as M. pose proof (m_s _ _ _ M) as I.
  assert (Hp : here m p) by (apply here_fget; eauto).
  assert (EI : info (cells m) p = Some (n_data c, length (n_slots c), m_regular (n_meta c))) by (unfold info; rewrite Fp; auto).
  destruct (s_cell m I _ _ _ _ EI) as [[L4 [ND _]] _]. split; auto. split; auto. split.
  - unfold cell_vertices. rewrite (data_sides I p c Fp). apply (NoDup_nth _ 0). rewrite !map_length. cbn [length]. intros i j Li Lj E.
    rewrite !map_map in E. rewrite !(nth_indep _ 0 (B (hp m) (side m p 0))) in E by (rewrite map_length; auto).
    rewrite !(map_nth (fun x => B (hp m) (side m p x))) in E.
    replace (nth i [0; 1; 2; 3] 0) with i in E by (destruct i as [|[|[|[|]]]]; auto; lia).
    replace (nth j [0; 1; 2; 3] 0) with j in E by (destruct j as [|[|[|[|]]]]; auto; lia).
    apply (m_c _ _ _ M p i j); auto.
  - intros k h Hk. apply is_side_iff in Hk; auto. destruct Hk as [_ [Lk ->]].
    destruct (side_good I p k Hp Lk) as [_ [g1 [g2 [g3 g4]]]]. split; auto.
    exists (side m p ((k + 1) mod 4)), (side m p ((k + 3) mod 4)). rewrite !is_side_iff by auto. auto 10.
Qed.
Print Assumptions C28_cells.

(** The twin of side [k] of cell [p]: an involution between different cells of
    the same level, in the opposite direction through the same vertices; it is
    the side of the same-level neighbour, and it exists whenever that neighbour
    exists. *)
Theorem C28_twin pts faces m0 m p k h : mesh_history pts faces m0 m -> is_side m p k h ->
  (forall t, twin (he (hp m) h) = Some t ->
     exists q j, is_side m q j t /\ nb (face_adj faces) p k q j /\ q <> p /\ length q = length p /\
       twin (he (hp m) t) = Some h /\
       hbase (he (hp m) t) = hhead (he (hp m) h) /\ hhead (he (hp m) t) = hbase (he (hp m) h)) /\
  (forall q j c, nb (face_adj faces) p k q j -> fget (cells m) q = Some c ->
     exists t, is_side m q j t /\ twin (he (hp m) h) = Some t).
Proof.
  intros H Hk. pose proof (history_minv _ _ _ _ H) as M. pose proof (m_s _ _ _ M) as I. destruct H as [_ [QF _]].
  apply is_side_iff in Hk; auto. destruct Hk as [Hp [Lk ->]]. split.
  - intros t ET. destruct (twin_side I p k t Hp Lk ET) as [q [j [Hq [Lj [-> ET']]]]]. exists q, j.
    rewrite is_side_iff by auto. split; auto.
    assert (N : nb (radj m) p k q j) by (apply (twin_nb I); auto). split; [apply (nb_faces pts faces m QF M); auto|].
    destruct (side_good I p k Hp Lk) as [L [_ [G _]]]. destruct (side_good I q j Hq Lj) as [L' [_ [G' _]]].
    destruct (i_t _ (s_h m I) _ _ L ET) as [_ [_ [NE [_ V]]]]. destruct (V (u_r _ (m_u _ _ _ M) _ L)) as [V1 V2].
    split; [|split; [|auto]].
    + intros ->. rewrite G in V1. rewrite G' in V2.
      apply (m_c _ _ _ M p) in V1; auto. apply (m_c _ _ _ M p) in V2; auto. clear - V1 V2 Lk Lj.
      subst j. destruct k as [|[|[|[|k]]]]; try discriminate; lia.
    + destruct (nb_sides _ _ _ _ _ radj_lt N) as [_ [_ [E _]]]. auto.
  - intros q j c N Fq. assert (Hq : here m q) by (apply here_fget; eauto). apply (nb_faces pts faces m QF M) in N.
    destruct (nb_sides _ _ _ _ _ radj_lt N) as [_ [Lj _]]. exists (side m q j). rewrite is_side_iff by auto. split; auto.
    apply (twin_nb I); auto.
Qed.
Print Assumptions C28_twin.

(** get_neighbors(half_edge, flag) is the same-level neighbour across that side,
    if it exists and has the flag. *)
Theorem C28_get_neighbors pts faces m0 m p k h fl : mesh_history pts faces m0 m -> is_side m p k h ->
  exists r, get_neighbors m h fl = Ok r /\
    forall q, r = Some q <-> exists j, nb (face_adj faces) p k q j /\ in_sub (cells m) fl q.
Proof.
  intros H Hk. destruct (C28_twin pts faces m0 m p k h H Hk) as [T1 T2]. pose proof (history_minv _ _ _ _ H) as M.
  pose proof (m_s _ _ _ M) as I. destruct H as [PM [QF H]]. unfold get_neighbors.
  assert (UNIQ : forall t q j q' j' c', twin (he (hp m) h) = Some t -> is_side m q j t -> nb (face_adj faces) p k q' j' -> fget (cells m) q' = Some c' -> q = q').
  { intros t q j q' j' c' ET Hs N F. destruct (T2 _ _ _ N F) as [t' [Ht' ET']]. assert (t' = t) by congruence. subst t'.
    apply is_side_iff in Hs, Ht'; auto. destruct Hs as [hq [lj E1]]. destruct Ht' as [hq' [lj' E2]].
    eapply (proj1 (QuadInv.side_inj I q q' j j' hq hq' lj lj' ltac:(congruence))). }
  destruct (twin (he (hp m) h)) as [t|] eqn:ET.
  - destruct (T1 t eq_refl) as [q [j [Hs [N _]]]]. pose proof Hs as Hs'. destruct Hs' as [c [Fc _]].
    assert (HC : hcell (he (hp m) t) = Some q).
    { apply is_side_iff in Hs; auto. destruct Hs as [hq [lj ->]]. destruct (side_good I q j hq lj) as [_ [g1 _]]. auto. }
    rewrite HC. destruct fl as [g|].
    + exists (if marked_at (cells m) q g then Some q else None). split; auto. intros q'.
      unfold marked_at. rewrite Fc. split.
      * destruct (is_marked c (Some g)) eqn:MK; [|discriminate]. intros [= <-]. exists j. split; auto. exists c; auto.
      * intros [j' [N' [c' [F' IM]]]]. assert (E : q = q') by (eapply UNIQ; eauto). subst q'. assert (c' = c) by congruence. subst c'.
        cbn [fl_ok] in IM. rewrite IM. auto.
    + exists (Some q). split; auto. intros q'. split.
      * intros [= <-]. exists j. split; auto. exists c. split; simpl; auto.
      * intros [j' [N' [c' [F' _]]]]. f_equal. eapply UNIQ; eauto.
  - exists None. split; auto. intros q. split; [discriminate|]. intros [j [N [c [F _]]]]. destruct (T2 _ _ _ N F) as [t [_ E]]. discriminate.
Qed.
Print Assumptions C28_get_neighbors.

(** The end points identify a side: two sides between the same vertex objects in
    the same direction are the same side, in opposite directions they are twins. *)
Theorem C28_end_points pts faces m0 m p k h q j g : mesh_history pts faces m0 m -> is_side m p k h -> is_side m q j g ->
  (hbase (he (hp m) h) = hbase (he (hp m) g) -> hhead (he (hp m) h) = hhead (he (hp m) g) -> p = q /\ k = j /\ h = g) /\
  (twin (he (hp m) h) = Some g <-> hbase (he (hp m) h) = hhead (he (hp m) g) /\ hhead (he (hp m) h) = hbase (he (hp m) g)).
Proof.
  intros H Hk Hj. pose proof (history_minv _ _ _ _ H) as M. pose proof (m_s _ _ _ M) as I. pose proof (m_u _ _ _ M) as U.
  apply is_side_iff in Hk, Hj; auto. destruct Hk as [Hp [Lk ->]]. destruct Hj as [Hq [Lj ->]].
  destruct (side_good I p k Hp Lk) as [L _]. destruct (side_good I q j Hq Lj) as [L' _]. split.
  - intros E1 E2. pose proof (u_1 _ U _ _ L L' E1 E2) as E. destruct (QuadInv.side_inj I _ _ _ _ Hp Hq Lk Lj E); auto.
  - split; [|intros [E1 E2]; apply (u_3 _ U); auto]. intros E. destruct (i_t _ (s_h m I) _ _ L E) as [_ [_ [_ [_ V]]]].
    destruct (V (u_r _ U _ L)). auto.
Qed.
Print Assumptions C28_end_points.

(** The children of a cell: coordinates as computed by C20's [qchild], corner [i]
    of the parent is vertex [i] of child [i], and a common side of two refined
    cells has one midpoint vertex object. *)
Theorem C28_children pts faces m0 m p c : mesh_history pts faces m0 m -> fget (cells m) p = Some c -> has_children c None = true ->
  forall i, i < 4 -> exists k, nth_error (n_slots c) i = Some (Some k) /\
    nth_error (cell_vertices (hp m) (n_data k)) i = nth_error (cell_vertices (hp m) (n_data c)) i /\
    all_peq (coords m k) (verts (qchild i (quad_of (coords m c)))).
Proof.
  intros H Fp HC i Li. pose proof (history_minv _ _ _ _ H) as M. pose proof (m_s _ _ _ M) as I.
  assert (Hp : here m p) by (apply here_fget; eauto). pose proof (path_nonempty p Hp) as Np.
  apply has_children_spec in HC. destruct HC as [x [kx [Ex _]]].
  assert (Hx : here m (p ++ [x])) by (apply here_fget; exists kx; rewrite fget_snoc, Fp by auto; rewrite Ex; auto).
  destruct (s_fam m I p x Np Hx) as [Lx F]. pose proof (F i Li) as Hi. pose proof Hi as Hi'. apply here_fget in Hi'. destruct Hi' as [k Fk].
  exists k. assert (Ek : nth_error (n_slots c) i = Some (Some k)).
  { rewrite fget_snoc, Fp in Fk by auto. destruct (nth_error (n_slots c) i) as [[o|]|]; congruence. }
  split; auto. split.
  - unfold cell_vertices. rewrite !nth_error_map, (data_sides I _ _ Fk), (data_sides I _ _ Fp).
    destruct (s_kids m I p i Np Hi) as [EK _]. destruct (side_good I p i Hp Li) as [L _].
    destruct (i_k _ (s_h m I) _ _ _ L EK) as [_ [_ [_ [_ [EB _]]]]].
    rewrite !nth_error_map. destruct i as [|[|[|[|i]]]]; [| | | |lia]; cbn [nth_error option_map]; congruence.
  - pose proof (m_kid _ _ _ M p i Np Hi) as Q. rewrite (coords_quad m p c I Fp). rewrite <- (coords_quad m _ k I Fk) in Q.
    destruct (qchild i (cquad m p)) as [[[a b] x'] d].
    unfold coords, cell_vertices in *. rewrite (data_sides I _ _ Fk) in *. cbn [map] in *. cbn in Q.
    destruct Q as [Q1 [Q2 [Q3 Q4]]]. unfold all_peq, verts. repeat constructor; auto; (apply Q1 || apply Q2 || apply Q3 || apply Q4).
Qed.
Print Assumptions C28_children.
Theorem C28_midpoints pts faces m0 m p k h q j t : mesh_history pts faces m0 m ->
  is_side m p k h -> is_side m q j t -> twin (he (hp m) h) = Some t ->
  forall hk tj, is_side m (p ++ [k]) k hk -> is_side m (q ++ [j]) j tj ->
    hhead (he (hp m) hk) = hhead (he (hp m) tj) /\
    hbase (he (hp m) hk) = hbase (he (hp m) h) /\
    peq (vx (hp m) (hhead (he (hp m) hk))) (midpoint (vx (hp m) (hbase (he (hp m) h))) (vx (hp m) (hhead (he (hp m) h)))).
Proof.
  intros H Hk Hj ET hk tj Hhk Htj. pose proof (history_minv _ _ _ _ H) as M. pose proof (m_s _ _ _ M) as I. pose proof (m_u _ _ _ M) as U.
  apply is_side_iff in Hk, Hj, Hhk, Htj; auto. destruct Hk as [Hp [Lk ->]]. destruct Hj as [Hq [Lj ->]].
  destruct Hhk as [Hpk [_ ->]]. destruct Htj as [Hqj [_ ->]]. pose proof (path_nonempty p Hp) as Np. pose proof (path_nonempty q Hq) as Nq.
  destruct (side_good I p k Hp Lk) as [L _]. destruct (side_good I q j Hq Lj) as [L' _].
  destruct (s_kids m I p k Np Hpk) as [EK _]. destruct (s_kids m I q j Nq Hqj) as [EJ _].
  destruct (i_k _ (s_h m I) _ _ _ L EK) as [La [Lb [_ [_ [B1 [B2 [B3 [R1 [R2 MP]]]]]]]]]. split; [|auto].
  destruct (i_k _ (s_h m I) _ _ _ L' EJ) as [La' [Lb' [_ [_ [B1' [B2' _]]]]]].
  pose proof (i_kt _ (s_h m I) _ _ _ L EK) as KT. rewrite ET, EJ in KT. destruct KT as [KT _].
  destruct (i_t _ (s_h m I) _ _ La KT) as [_ [_ [_ [_ V]]]]. destruct (V (u_r _ U _ La)) as [V1 V2]. congruence.
Qed.
Print Assumptions C28_midpoints.

(** Splitting: a cell without children whose vertices are in convex position can
    always be split, and so can all its descendants; a cell with children
    cannot. *)
Theorem C28_split_raises pts faces m0 m fl p c : mesh_history pts faces m0 m -> fget (cells m) p = Some c ->
  (has_children c None = true -> cell_split fl p m = Err AssertionError) /\
  (has_children c None = false ->
     match cell_split fl p m with
     | Ok m' => forall i, i < 4 -> (0 < area (qchild i (quad_of (coords m c))))%Q
     | Err e => e = AssertionError /\ exists i, i < 4 /\ (area (qchild i (quad_of (coords m c))) <= 0)%Q
     end) /\
  (has_children c None = false -> convex (quad_of (coords m c)) -> exists m', cell_split fl p m = Ok m').
Proof.
  intros H Fp. pose proof (history_minv _ _ _ _ H) as M. pose proof (m_s _ _ _ M) as I.
  assert (Hp : here m p) by (apply here_fget; eauto). pose proof (path_nonempty p Hp) as Np. rewrite (coords_quad m p c I Fp).
  assert (LF : has_children c None = false -> forall i, ~ here m (p ++ [i])).
  { intros HC i Hi. apply here_fget in Hi. destruct Hi as [k Fk]. rewrite fget_snoc, Fp in Fk by auto.
    destruct (nth_error (n_slots c) i) as [[x|]|] eqn:Ex; try discriminate. exact (proj1 (has_children_none c) HC i x Ex). }
  split; [|split].
  - intros HC. unfold cell_split. rewrite Fp, HC. auto.
  - intros HC. pose proof (split_coords fl p m I Hp (LF HC)) as Q. destruct (cell_split fl p m) as [m'|e]; auto.
    intros i Li. apply Q; auto.
  - intros HC CV. destruct (split_convex fl p m I Hp (LF HC) CV) as [m' [E _]]. eauto.
Qed.
Print Assumptions C28_split_raises.
Theorem C28_convex pts faces m0 m : mesh_history pts faces m0 m ->
  (forall fc, In fc faces -> convex (face_quad pts fc)) ->
  forall p c, fget (cells m) p = Some c -> convex (quad_of (coords m c)).
Proof.
  intros H CV p c Fp. pose proof (history_minv _ _ _ _ H) as M. pose proof (m_s _ _ _ M) as I.
  rewrite (coords_quad m p c I Fp). assert (Hp : here m p) by (apply here_fget; eauto). clear c Fp.
  induction p as [|i p IH] using rev_ind; [destruct (path_nonempty [] Hp); auto|]. destruct p as [|a p].
  - change ([] ++ [i]) with [i] in *. apply (m_roots _ _ _ M) in Hp. destruct (nth_error faces i) as [fc|] eqn:Ei; [|apply nth_error_None in Ei; lia].
    specialize (CV fc (nth_error_In _ _ Ei)). destruct H as [PM [QF _]]. destruct (qf_nth faces i QF Hp) as [_ L4].
    assert (EQ : cquad m [i] = face_quad pts fc); [|rewrite EQ; exact CV].
    unfold cquad, face_quad.
    destruct PM as [_ [PV _]]. rewrite Forall_forall in PV. specialize (PV fc (nth_error_In _ _ Ei)). rewrite Forall_forall in PV.
    rewrite (nth_error_nth _ _ [] Ei) in L4.
    assert (Q : forall k, k < 4 -> vx (hp m) (B (hp m) (side m [i] k)) = nth (nth k fc 0) pts (0, 0)%Q).
    { intros k Lk. destruct (m_base _ _ _ M i k Hp Lk) as [-> ->]. unfold fvert. rewrite (nth_error_nth _ _ [] Ei).
      apply (m_vx _ _ _ M). apply PV. apply nth_In. lia. }
    rewrite !Q by lia. reflexivity.
  - assert (Na : a :: p <> []) by congruence. destruct (s_fam m I _ i Na Hp) as [Li _].
    eapply qeq_convex; [apply qeq_sym, (m_kid _ _ _ M); auto|]. apply qchild_convex; auto. apply IH. eapply here_parent; eauto.
Qed.
Print Assumptions C28_convex.

(** Every rectangular grid meets the hypotheses. *)
Lemma grid_quads nx ny : quad_faces (grid_faces nx ny).
Proof.
  apply Forall_forall. intros fc If. pose proof (grid_simple nx ny) as S. rewrite Forall_forall in S. destruct (S fc If) as [ND _].
  destruct (in_grid_faces _ _ _ If) as [ix [iy [_ [_ ->]]]]. split; auto.
Qed.
Theorem C28_grid nx ny (xa xb ya yb : Q) : (xa < xb)%Q -> (ya < yb)%Q ->
  let pts := grid_points xa xb ya yb nx ny in
  (forall fc, In fc (grid_faces nx ny) -> convex (face_quad pts fc)) /\
  exists d m0, rectangular2 nx ny = Ok d /\ mesh_of_dcel false pts d = Ok m0 /\ mesh_history pts (grid_faces nx ny) m0 m0.
Proof.
  intros Hx Hy pts.
  assert (CV : forall fc, In fc (grid_faces nx ny) -> convex (face_quad pts fc)).
  { intros fc If. destruct (in_grid_faces _ _ _ If) as [ix [iy [Lx [Ly ->]]]].
    destruct (C25_faces nx ny ix iy xa xb ya yb Lx Ly) as (a & b & c & e & pa & pb & pc & pe & E & A1 & A2 & A3 & A4 & A5).
    rewrite grid_faces_nth in E by auto. injection E as <- <- <- <-.
    fold pts in A1, A2, A3, A4. unfold grid_face, face_quad. cbn [nth]. rewrite (nth_error_nth _ _ _ A1), (nth_error_nth _ _ _ A2), (nth_error_nth _ _ _ A3), (nth_error_nth _ _ _ A4).
    apply aligned_convex. destruct A5 as ([u1 v1] & [u2 v2] & [u3 v3] & [u4 v4] & A6). destruct (A6 Hx Hy) as [W1 [W2 _]]. cbn [fst snd] in *.
    unfold aligned. rewrite u1, u2, u3, u4, v1, v2, v3, v4. repeat split; auto; reflexivity. }
  split; auto.
  assert (LP : length pts = (nx + 1) * (ny + 1)).
  { destruct (C25_grid_size nx ny) as [d [_ [Ep [_ [_ [_ [_ EL]]]]]]]. unfold pts. rewrite EL, Ep. auto. }
  assert (PM : polygon_mesh (length pts) (grid_faces nx ny)) by (rewrite LP; apply grid_polygon_mesh).
  destruct (C28_initial pts (grid_faces nx ny) PM (grid_quads nx ny)) as [d [Ed Em]].
  exists d. destruct (mesh_of_dcel false pts d) as [m0|e] eqn:E0.
  - exists m0. unfold rectangular2. rewrite <- LP. split; auto. split; auto. split; auto. split; [apply grid_quads|].
    split; [exists d; auto|constructor].
  - exfalso. destruct Em as [_ [fc [If A]]]. pose proof (convex_area _ (CV fc If)) as A'. apply Qlt_not_le in A'. auto.
Qed.
Print Assumptions C28_grid.
(** a concrete history: the 2 x 1 grid on [0,2] x [0,1], three splits and a label *)
Definition got (r : res mesh2) : mesh2 := match r with Ok m => m | Err _ => mkMesh (mkHeap 0 (fun _ => (0, 0)%Q) 0 (fun _ => mkHe 0 0 None None None None None None false)) [] end.
Lemma got_ok r : match r with Ok _ => true | Err _ => false end = true -> r = Ok (got r).
Proof. destruct r; simpl; congruence. Qed.
Lemma bind_ok {X Y} (r : res X) (f : X -> res Y) y : bind r f = Ok y -> exists x, r = Ok x /\ f x = Ok y.
Proof. destruct r as [x|]; simpl; [eauto|discriminate]. Qed.
Lemma side_b m p k h : match fget (cells m) p with Some c => nth_error (n_data c) k | None => None end = Some h -> is_side m p k h.
Proof. unfold is_side. destruct (fget (cells m) p) as [c|]; [eauto|discriminate]. Qed.
Lemma grid_then nx ny (xa xb ya yb : Q) (K : mesh2 -> res mesh2) m : (xa < xb)%Q -> (ya < yb)%Q ->
  bind (bind (rectangular2 nx ny) (mesh_of_dcel false (grid_points xa xb ya yb nx ny))) K = Ok m ->
  exists m0, mesh_history (grid_points xa xb ya yb nx ny) (grid_faces nx ny) m0 m0 /\ K m0 = Ok m.
Proof.
  intros Hx Hy E. destruct (C28_grid nx ny xa xb ya yb Hx Hy) as [_ [d [m0 [E1 [E2 H]]]]]. exists m0.
  rewrite E1 in E. cbn [bind] in E. rewrite E2 in E. cbn [bind] in E. auto.
Qed.
Definition splits3 (f1 : option flag) (p1 : path) (f2 : option flag) (p2 : path) (f3 : option flag) (p3 : path) (m : mesh2) : res mesh2 :=
  bind (cell_split f1 p1 m) (fun m => bind (cell_split f2 p2 m) (fun m => cell_split f3 p3 m)).
Lemma splits3_history pts faces m0 f1 p1 f2 p2 f3 p3 m : mesh_history pts faces m0 m0 -> splits3 f1 p1 f2 p2 f3 p3 m0 = Ok m ->
  mesh_history pts faces m0 m.
Proof.
  intros [h1 [h2 [h3 _]]] E. unfold splits3 in E.
  apply bind_ok in E. destruct E as [m1 [S1 E]]. apply bind_ok in E. destruct E as [m2 [S2 S3]].
  split; [exact h1|]. split; [exact h2|]. split; [exact h3|].
  apply ed_more with m2; [|eapply ed_split; exact S3]. apply ed_more with m1; [|eapply ed_split; exact S2].
  apply ed_more with m0; [constructor|eapply ed_split; exact S1].
Qed.
Definition grid_splits (nx ny : nat) (xb yb : Q) (p1 : path) (f2 : option flag) (p2 p3 : path) : res mesh2 :=
  bind (bind (rectangular2 nx ny) (mesh_of_dcel false (grid_points 0 xb 0 yb nx ny))) (splits3 None p1 f2 p2 None p3).
Lemma grid_splits_history nx ny xb yb p1 f2 p2 p3 m : (0 < xb)%Q -> (0 < yb)%Q -> grid_splits nx ny xb yb p1 f2 p2 p3 = Ok m ->
  exists m0, mesh_history (grid_points 0 xb 0 yb nx ny) (grid_faces nx ny) m0 m.
Proof.
  intros Hx Hy E. apply (grid_then nx ny 0 xb 0 yb _ m Hx Hy) in E. destruct E as [m0 [H E]]. exists m0.
  exact (splits3_history _ _ _ _ _ _ _ _ _ _ H E).
Qed.
Notation ex_mesh := (grid_splits 2 1 2 1 [0] (Some 5) [0; 1] [1]).
Lemma ex_ok : ex_mesh = Ok (got ex_mesh).
Proof. apply got_ok. vm_cast_no_check (eq_refl true). Qed.
Lemma ex_history m : ex_mesh = Ok m -> exists m0, mesh_history (grid_points 0 2 0 1 2 1) (grid_faces 2 1) m0 m.
Proof. exact (grid_splits_history 2 1 2 1 [0] (Some 5) [0; 1] [1] m eq_refl eq_refl). Qed.
Lemma ex_side1 : is_side (got ex_mesh) [0; 1] 1 12. Proof. apply side_b. vm_cast_no_check (eq_refl (Some 12)). Qed.
Lemma ex_side2 : is_side (got ex_mesh) [1; 0] 3 53. Proof. apply side_b. vm_cast_no_check (eq_refl (Some 53)). Qed.
Lemma ex_twin : twin (he (hp (got ex_mesh)) 12) = Some 53. Proof. vm_cast_no_check (eq_refl (Some 53)). Qed.
Example C28_case : exists m0 m, ex_mesh = Ok m /\ mesh_history (grid_points 0 2 0 1 2 1) (grid_faces 2 1) m0 m /\
  is_side m [0; 1] 1 12 /\ twin (he (hp m) 12) = Some 53 /\ is_side m [1; 0] 3 53.
Proof.
  pose proof ex_ok as E. destruct (ex_history _ E) as [m0 H]. exists m0, (got ex_mesh).
  split; [exact E|]. split; [exact H|]. split; [exact ex_side1|]. split; [exact ex_twin|exact ex_side2].
Qed.

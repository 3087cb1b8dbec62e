(** * C20-C23: geometry of quadrilateral (and interval) cells *)
From Coq Require Import List Arith Bool Lia QArith Lqa Qabs Qminmax Permutation.
Import ListNotations.
From Verif Require Import Tree Forest SpecForest TreeFacts ForestFacts LabelFacts RootFacts History PlaceFacts
  RefineFacts RefineFacts2 Geom GenFacts SpecGeom IntervalFacts QuadGeomFacts BinFacts LeafFacts Prop_Place Prop_Bin.
Open Scope Q_scope.

(** the unit square, a trapezoid, and a chevron that is not convex *)
Definition unit_sq : quad := ((0, 0), (1, 0), (1, 1), (0, 1)).
Definition trap : quad := ((0, 0), (3, 0), (2, 1), (0, 2)).
Definition chevron : quad := ((0, 0), (4, 0), (1 # 10, 1 # 10), (0, 4)).

(** ** C20 *)
(** the area that the code computes is the area between the diagonals' triangles *)
Theorem C20_area (a b c d : pt) : area (a, b, c, d) == (1 # 2) * (orient a b c + orient c d a).
Proof. apply area_orient. Qed.
Print Assumptions C20_area.

(** One split.  No convexity is needed for the sum of the areas nor for covering;
    on a convex cell split does not raise and makes four convex cells of
    positive area that lie inside it with disjoint interiors. *)
Theorem C20_split (q : quad) :
  (area (qchild 0 q) + area (qchild 1 q) + area (qchild 2 q) + area (qchild 3 q) == area q) /\
  (forall tol p, 0 <= tol -> qcontains tol q p = true ->
     exists i, (i < 4)%nat /\ qcontains tol (qchild i q) p = true) /\
  (convex q ->
     qsplit q = Ok [qchild 0 q; qchild 1 q; qchild 2 q; qchild 3 q] /\
     forall i, (i < 4)%nat ->
       convex (qchild i q) /\ 0 < area (qchild i q) /\
       (forall p, qcontains 0 (qchild i q) p = true -> qcontains 0 q p = true) /\
       (forall j p, (j < 4)%nat -> i <> j -> in_int (qchild i q) p -> ~ in_int (qchild j q) p)).
Proof.
  split; [apply area_children|]. split; [intros; apply qchild_cover; auto|].
  intro HC. split.
  - unfold qsplit. cbn [seq fold_res]. unfold make_cell.
    assert (A : forall i, (i < 4)%nat -> Qltb 0 (area_of (child_edges q i)) = true).
    { intros i Hi. rewrite child_edges_eq by auto. apply Qltb_lt. apply convex_area, qchild_convex; auto. }
    rewrite (A 0%nat), (A 1%nat), (A 2%nat), (A 3%nat) by lia. reflexivity.
  - intros i Hi. split; [apply qchild_convex; auto|]. split; [apply convex_area, qchild_convex; auto|]. split.
    + intros p. rewrite !qcontains_0. apply qchild_inside; auto.
    + intros j p Hj N. apply qchild_disjoint; auto.
Qed.
Print Assumptions C20_split.
Example C20_convex_cases : convex trap /\ convex unit_sq /\ in_int (qchild 2 trap) (17 # 10, 9 # 10).
Proof. vm_compute. repeat split; reflexivity. Qed.

(** a cell that is not convex: the constructor accepts it (positive area), but
    split raises the orientation assertion *)
Theorem C20_nonconvex_split_raises : exists q, 0 < area q /\ qsplit q = Err AssertionError.
Proof. exists chevron. split; vm_compute; reflexivity. Qed.
Print Assumptions C20_nonconvex_split_raises.

(** The last part of the claim fails for a positive tolerance: the test is not
    scaled with the edge length, so a child accepts points that are twice as far
    outside.  For every tolerance and the unit square: *)
Theorem C20_child_point_in_parent_refuted (tol : Q) : 0 < tol ->
  exists p, qcontains tol (qchild 0 unit_sq) p = true /\ qcontains tol unit_sq p = false.
Proof.
  intro H. exists (1 # 4, - (3 # 2) * tol).
  assert (E : forall q p, qcontains tol q p = false <-> ~ qcontains tol q p = true)
    by (intros; destruct (qcontains tol q p); split; congruence).
  rewrite E. unfold unit_sq. rewrite qchild_0, !qcontains_iff. unfold orient, mid, midpoint, centre. cbn [fst snd].
  split; [repeat split; lra|]. intros [K _]. lra.
Qed.
Print Assumptions C20_child_point_in_parent_refuted.

(** Whole meshes: any history of plain operations, any rooted submesh. *)
Lemma sumQ_app l1 l2 : sumQ (l1 ++ l2) == sumQ l1 + sumQ l2.
Proof. induction l1 as [|x l IH]; simpl; [ring|]. rewrite IH. ring. Qed.

Section Mesh.
Variable f : forest quad.
Variable sf : option flag.
Hypothesis HG : fgen qkid f.
Hypothesis HR : submesh_rooted f sf.
Hypothesis H4 : forall t, In t f -> n_children t = 4%nat.

Definition leaf_areas p n := sumQ (map (fun c => area (n_data (snd c))) (leaves_of sf p n)).
Lemma leaf_area_sum : forall n p, fget f p = Some n -> fl_ok sf n -> leaf_areas p n == area (n_data n).
Proof.
  induction n as [m d ks IH] using node_ind'. intros p E F. unfold leaf_areas.
  destruct (has_children (Node m d ks) sf) eqn:Hc.
  - destruct (@leaves_branch quad qkid f sf HG HR p _ E F Hc) as [l [El [_ [Hl ->]]]]. cbn [n_slots n_data] in *.
    pose proof (slots4 f HG H4 p _ E) as L4. unfold n_children in L4; cbn [n_slots] in L4. rewrite El, map_length in L4.
    destruct l as [|k0 [|k1 [|k2 [|k3 [|? ?]]]]]; try discriminate.
    cbn [index_from flat_map fst snd]. rewrite app_nil_r, !map_app, !sumQ_app.
    assert (C : forall i k, nth_error [k0; k1; k2; k3] i = Some k -> leaf_areas (p ++ [i]) k == area (qchild i d)).
    { intros i k Ek. destruct (Hl i k Ek) as [A1 [A2 [A3 _]]]. rewrite IH with (i := i); auto.
      - rewrite A3. reflexivity.
      - rewrite El, nth_error_map, Ek. reflexivity. }
    unfold leaf_areas in C.
    rewrite (C 0%nat k0 eq_refl), (C 1%nat k1 eq_refl), (C 2%nat k2 eq_refl), (C 3%nat k3 eq_refl).
    rewrite <- (area_children d). ring.
  - rewrite (@leaves_leaf quad f sf HR p _ E F Hc). cbn [map sumQ snd n_data]. ring.
Qed.

Lemma root_ok i t : nth_error f i = Some t -> fl_ok sf t.
Proof.
  intros Et. destruct sf as [s|]; [|exact I]. destruct HR as [H1 _]. specialize (H1 i).
  unfold present, marked_at in H1. simpl in H1. rewrite Et in H1. exact (H1 eq_refl).
Qed.
Lemma mesh_area_sum : sumQ (map (fun c => area (n_data (snd c))) (fget_leaves f None sf DepthFirst)) ==
  sumQ (map (fun t => area (n_data t)) f).
Proof.
  rewrite fget_leaves_dfs. unfold roots.
  assert (G : forall l j, (forall i, nth_error l i = nth_error f (j + i)) ->
    sumQ (map (fun c => area (n_data (snd c))) (flat_map (fun c => leaves_of sf (fst c) (snd c))
       (map (fun ix => ([fst ix], snd ix)) (index_from j l)))) == sumQ (map (fun t => area (n_data t)) l)).
  { induction l as [|t l IH]; intros j Hl; simpl; [reflexivity|]. rewrite map_app, sumQ_app.
    assert (Et : nth_error f j = Some t) by (specialize (Hl 0%nat); simpl in Hl; rewrite Nat.add_0_r in Hl; auto).
    rewrite IH.
    - pose proof (leaf_area_sum t [j]) as S. unfold leaf_areas in S. simpl in S. rewrite Et in S.
      rewrite S; auto; [reflexivity|]. eapply root_ok; eauto.
    - intro i. specialize (Hl (S i)). simpl in Hl. rewrite Hl. f_equal. lia. }
  apply (G f 0%nat). auto.
Qed.

Lemma data_descend : forall r n c, fget f n = Some c -> forall k, nget c r = Some k ->
  n_data k = descend (n_data c) r /\ four r.
Proof.
  induction r as [|i r IH]; intros p c E k Ek; simpl in Ek; [injection Ek as <-; split; [auto|constructor]|].
  destruct (nth_error (n_slots c) i) as [[k0|]|] eqn:Ei; try discriminate.
  pose proof (fgen_fget p HG E) as G. apply Gen_inv in G. destruct G as [_ [_ G]]. destruct (G i k0 Ei) as [D [N _]].
  assert (E0 : fget f (p ++ [i]) = Some k0) by (eapply fget_kid; eauto).
  destruct (IH _ _ E0 k Ek) as [H1 H2]. split.
  - rewrite H1, D. reflexivity.
  - constructor; auto. pose proof (slots4 f HG H4 p c E) as L. unfold n_children in L.
    rewrite <- L. apply nth_error_Some. congruence.
Qed.
End Mesh.

Lemma descend_convex r : forall q, four r -> convex q -> convex (descend q r).
Proof.
  induction r as [|i r IH]; intros q H C; auto. inversion H; subst. apply IH; auto. apply qchild_convex; auto.
Qed.
Lemma descend_inside r : forall q p, four r -> convex q -> in_quad (descend q r) p -> in_quad q p.
Proof.
  induction r as [|i r IH]; intros q p H C I; auto. inversion H; subst. eapply qchild_inside; eauto. apply IH; auto.
  apply qchild_convex; auto.
Qed.
Lemma descend_int r : forall q p, four r -> convex q -> in_int (descend q r) p -> in_int q p.
Proof.
  induction r as [|i r IH]; intros q p H C I; auto. inversion H; subst. eapply qchild_inside_strict; eauto. apply IH; auto.
  apply qchild_convex; auto.
Qed.

Theorem C20_mesh (l : list op) (f : forest quad) (sf : option flag) :
  Forall plain l -> run qkid [] l = Ok f -> submesh_rooted f sf ->
  (forall t, In t f -> n_children t = 4%nat) ->
  (* areas of the leaves add up to the areas of the roots *)
  sumQ (map (fun c => area (n_data (snd c))) (fget_leaves f None sf DepthFirst)) ==
    sumQ (map (fun t => area (n_data t)) f) /\
  (* if the roots are convex: every cell is convex with positive area and inside its root *)
  ((forall t, In t f -> convex (n_data t)) ->
   (forall i r t c, nth_error f i = Some t -> fget f (i :: r) = Some c ->
      convex (n_data c) /\ 0 < area (n_data c) /\ forall p, in_quad (n_data c) p -> in_quad (n_data t) p) /\
  (* and if the interiors of the roots are disjoint, so are those of the leaves *)
   ((forall i j t u p, nth_error f i = Some t -> nth_error f j = Some u -> i <> j ->
       in_int (n_data t) p -> ~ in_int (n_data u) p) ->
    forall x y c d p, sub_leaf f sf x -> sub_leaf f sf y -> x <> y ->
      fget f x = Some c -> fget f y = Some d -> in_int (n_data c) p -> ~ in_int (n_data d) p)).
Proof.
  intros Pl E R H4.
  assert (G : fgen qkid f) by (eapply run_gen; eauto; intros i t H; destruct i; discriminate).
  split; [apply mesh_area_sum; auto|]. intro HC.
  assert (DD : forall i r t c, nth_error f i = Some t -> fget f (i :: r) = Some c -> n_data c = descend (n_data t) r /\ four r).
  { intros i r t c Et Ec. apply (data_descend f G H4 r [i] t); simpl in *; rewrite Et in *; auto. }
  split.
  - intros i r t c Et Ec. destruct (DD i r t c Et Ec) as [D F]. rewrite D.
    assert (Ct : convex (n_data t)) by (apply HC; eapply nth_error_In; eauto).
    assert (Cd : convex (descend (n_data t) r)) by (apply descend_convex; auto).
    split; auto. split; [apply convex_area; auto|]. intro p. apply descend_inside; auto.
  - intros HD x y c d p Lx Ly N Ec Ed I1 I2.
    destruct x as [|i x]; [discriminate|]. destruct y as [|j y]; [discriminate|].
    assert (Hi : exists t, nth_error f i = Some t) by (simpl in Ec; destruct (nth_error f i); eauto; discriminate).
    assert (Hj : exists u, nth_error f j = Some u) by (simpl in Ed; destruct (nth_error f j); eauto; discriminate).
    destruct Hi as [t Et]. destruct Hj as [u Eu].
    destruct (DD i x t c Et Ec) as [D1 F1]. destruct (DD j y u d Eu Ed) as [D2 F2].
    assert (Ct : convex (n_data t)) by (apply HC; eapply nth_error_In; eauto).
    assert (Cu : convex (n_data u)) by (apply HC; eapply nth_error_In; eauto).
    rewrite D1 in I1. rewrite D2 in I2.
    destruct (Nat.eq_dec i j) as [->|Nij].
    + assert (u = t) by congruence. subst u.
      (* the paths diverge below a common ancestor, as neither leaf is inside the other *)
      assert (NP : forall a b k r e, sub_leaf f sf (a :: b) -> fget f ((a :: b) ++ k :: r) = Some e -> sub_leaf f sf ((a :: b) ++ k :: r) -> False).
      { intros a b k r e [n [En [_ Hn]]] Ee [n' [En' [Fn' _]]].
        destruct (@rooted_inner quad f sf (a :: b) k r n n') as [_ [k' [Ek' Fk']]]; auto; [discriminate|]. eapply Hn; eauto. }
      assert (G2 : forall a b q, four a -> four b -> convex q -> in_int (descend q a) p -> in_int (descend q b) p ->
                a = b \/ (exists k r, a = b ++ k :: r) \/ (exists k r, b = a ++ k :: r)).
      { induction a as [|a1 a IH]; intros b q Fa Fb Cq Ia Ib.
        - destruct b; auto. right. right. simpl. eauto.
        - destruct b as [|b1 b]; [right; left; simpl; eauto|]. inversion Fa; inversion Fb; subst.
          destruct (Nat.eq_dec a1 b1) as [->|Nab].
          + destruct (IH b (qchild b1 q)) as [->|[[k [r ->]]|[k [r ->]]]]; auto.
            * apply qchild_convex; auto.
            * right. left. exists k, r. auto.
            * right. right. exists k, r. auto.
          + exfalso. apply (qchild_disjoint q a1 b1 p); auto.
            * apply (descend_int a); auto. apply qchild_convex; auto.
            * apply (descend_int b); auto. apply qchild_convex; auto. }
      destruct (G2 x y (n_data t)) as [->|[[k [r ->]]|[k [r ->]]]]; auto.
      * exact (NP j y k r c Ly Ec Lx).
      * exact (NP j x k r d Lx Ed Ly).
    + apply (HD i j t u p Et Eu Nij); [apply (descend_int x)|apply (descend_int y)]; auto.
Qed.
Print Assumptions C20_mesh.
Example C20_mesh_case : (forall t, In t sq_f -> convex (n_data t)) /\ length (fget_leaves sq_f None None DepthFirst) = 8%nat /\
  sumQ (map (fun c => area (n_data (snd c))) (fget_leaves sq_f None None DepthFirst)) == 5 # 2.
Proof.
  split; [|split; vm_compute; reflexivity].
  intros t H. vm_compute in H. destruct H as [<-|[<-|[]]]; vm_compute; repeat split; reflexivity.
Qed.

(** ** C21 *)
(** Interval.subcell_position *)
Theorem C21_interval (l : list op) (f : forest itv) p r n c :
  Forall plain l -> run ikid [] l = Ok f -> fget f p = Some n -> nget n r = Some c -> fst (n_data n) < snd (n_data n) ->
  exists pos width, isubcell_position (n_data n) (n_data c) = Ok (pos, width) /\
    forall s, imap (n_data c) s == imap (n_data n) (pos + width * s).
Proof.
  intros Pl E En Er P.
  assert (G : Gen ikid n).
  { eapply fgen_fget; eauto. eapply run_gen; eauto. intros i t H; destruct i; discriminate. }
  assert (B : fst (n_data n) <= fst (n_data c) <= snd (n_data n) /\ fst (n_data c) <= snd (n_data c) <= snd (n_data n)).
  { clear En E Pl l f p. revert n G P Er. induction r as [|i r IH]; intros n G P Er; simpl in Er.
    - injection Er as <-. lra.
    - destruct (nth_error (n_slots n) i) as [[k|]|] eqn:Ei; try discriminate.
      apply Gen_inv in G. destruct G as [_ [_ G]]. destruct (G i k Ei) as [D [_ Gk]].
      assert (Hi : (i < n_children n)%nat) by (apply nth_error_Some; congruence).
      assert (Pk : fst (n_data k) < snd (n_data k)) by (rewrite D; apply ikid_pos; auto).
      destruct (IH k Gk Pk Er) as [B1 B2]. 
      destruct (ikid_knots (n_data n) (n_children n) i Hi) as [K1 K2]. rewrite <- D in K1, K2.
      destruct (knot_mono (n_data n) (n_children n) i) as [M1 M2]; [lia|lia|lra|].
      destruct (knot_mono (n_data n) (n_children n) (i + 1)) as [M3 M4]; [lia|lia|lra|]. lra. }
  set (d := n_data n) in *. set (e := n_data c) in *.
  exists ((fst e - fst d) / (snd d - fst d)), ((snd e - fst e) / (snd d - fst d)).
  unfold isubcell_position.
  assert (A1 : 0 <= (fst e - fst d) / (snd d - fst d)) by (apply Qle_shift_div_l; lra).
  assert (A2 : (fst e - fst d) / (snd d - fst d) <= 1) by (apply Qle_shift_div_r; lra).
  apply Qle_bool_iff in A1, A2. rewrite A1, A2. split; [reflexivity|].
  intro s. unfold imap. field. lra.
Qed.
Print Assumptions C21_interval.

(** QuadCell.subcell_position, on the stored addresses of the cells of a mesh *)
Theorem C21_quad (l : list op) (f : forest quad) p r n c cont :
  Forall plain l -> run qkid [] l = Ok f -> (forall t, In t f -> n_children t = 4%nat) ->
  fget f p = Some n -> nget n r = Some c -> r <> [] ->
  exists pos width,
    qsubcell_position (m_addr (n_meta n)) (m_addr (n_meta c)) cont = Ok (pos, width) /\
    forall s t, peq (qmap (n_data c) s t) (qmap (n_data n) (fst pos + width * s) (snd pos + width * t)).
Proof.
  intros Pl E H4 En Er Hr.
  assert (G : fgen qkid f) by (eapply run_gen; eauto; intros i t H; destruct i; discriminate).
  destruct p as [|i p]; [discriminate|].
  destruct (C06_place_invariant _ _ _ _ E i p n En) as [_ [A1 _]].
  assert (Ec : fget f (i :: p ++ r) = Some c) by (change (i :: p ++ r) with ((i :: p) ++ r); rewrite fget_app, En; auto).
  destruct (C06_place_invariant _ _ _ _ E i (p ++ r) c Ec) as [_ [A2 _]].
  destruct (data_descend f G H4 r (i :: p) n En c Er) as [D F].
  rewrite A1, A2. unfold qsubcell_position.
  assert (S : forall a, strip a (a ++ r) = Ok r) by (induction a as [|x a IH]; simpl; auto; rewrite Nat.eqb_refl; auto).
  change (i :: p ++ r) with ((i :: p) ++ r). rewrite S. cbn [bind]. destruct r as [|r0 r]; [congruence|].
  do 2 eexists. split; [reflexivity|]. intros s t. rewrite D.
  pose proof (rel_pos_map (n_data n) (r0 :: r) 0%nat (n_data n) (0, 0) F) as M.
  cbv zeta in M. cbn [Nat.add] in M. apply M. intros s' t'. apply qmap_compat; cbn [fst snd half_pow]; ring.
Qed.
Print Assumptions C21_quad.
(** the cell itself is not a proper subcell: the result is not defined *)
Theorem C21_self_refuted (a : list nat) cont : a <> [] -> qsubcell_position a a cont = Err NameError.
Proof.
  intro H. unfold qsubcell_position. destruct a as [|x a]; [congruence|].
  assert (S : forall b, strip b b = Ok []) by (induction b as [|y b IH]; simpl; auto; rewrite Nat.eqb_refl; auto).
  rewrite S. reflexivity.
Qed.
Print Assumptions C21_self_refuted.
Example C21_case : match fget sq_f [0%nat] with
  | Some n => match nget n [2; 3]%nat with
    | Some c => match qsubcell_position (m_addr (n_meta n)) (m_addr (n_meta c)) true with
      | Ok (pos, w) => peq pos (1 # 2, 3 # 4) /\ w == 1 # 4
      | Err _ => False end
    | None => False end
  | None => False end.
Proof. vm_compute. repeat split. Qed.

(** ** C22 *)
Theorem C22_interval (d : itv) (x : Q) : fst d < snd d ->
  imap_inv d (imap d x) == x /\ imap d (imap_inv d x) == x.
Proof. intro H. unfold imap, imap_inv. split; field; lra. Qed.
Print Assumptions C22_interval.

(** An axis-aligned rectangle whose first vertex is the south-west one has
    is_rectangle set, and the explicit inverse is exact, for all points. *)
Theorem C22_rectangle (q : quad) : aligned q ->
  is_rectangle q = true /\
  (forall s t, exists st, qmap_inv true q (qmap q s t) = Some st /\ peq st (s, t)) /\
  (forall p, exists st, qmap_inv true q p = Some st /\ peq (qmap q (fst st) (snd st)) p).
Proof.
  intro H. split.
  - destruct q as [[[[x0 y0] [x1 y1]] [x2 y2]] [x3 y3]]. unfold aligned in H. cbn [fst snd] in H.
    destruct H as [H1 [H2 [H3 [H4 [H5 H6]]]]].
    assert (P : forall u v w z : Q, (u == 0 /\ z == 0) \/ (v == 0 /\ w == 0) ->
        Qltb (Qabs (u * w + v * z)) (1 # 1000000000000) && Qltb (Qmin (Qabs u) (Qabs v)) (1 # 1000000000000) = true).
    { intros u v w z K. apply andb_true_iff. split; apply Qltb_lt.
      - assert (Z : u * w + v * z == 0) by (destruct K as [[K1 K2]|[K1 K2]]; rewrite K1, K2; ring).
        rewrite Z. reflexivity.
      - destruct K as [[K1 _]|[K1 _]].
        + eapply Qle_lt_trans; [apply Q.le_min_l|]. rewrite K1. reflexivity.
        + eapply Qle_lt_trans; [apply Q.le_min_r|]. rewrite K1. reflexivity. }
    unfold is_rectangle, eps12. cbn [seq forallb]. unfold vert, verts, vec. cbn [Nat.add Nat.modulo Nat.divmod fst snd Nat.sub nth].
    rewrite !andb_true_iff.
    split; [|split; [|split; [|split; [|reflexivity]]]]; (apply andb_true_iff, P; lra).
  - split; [intros s t; apply rect_roundtrip1; auto|intros p; apply rect_roundtrip2; auto].
Qed.
Print Assumptions C22_rectangle.
(** and all its descendants under split are of the same kind *)
Theorem C22_rectangle_children (q : quad) i : (i < 4)%nat -> aligned q -> aligned (qchild i q).
Proof. apply aligned_child. Qed.
Print Assumptions C22_rectangle_children.
Example C22_rect_case : aligned ((1, 2), (4, 2), (4, 3), (1, 3)).
Proof. vm_compute. repeat split; reflexivity. Qed.

(** is_rectangle is also set for rectangles that start at another corner; then
    the explicit inverse divides by zero. *)
Theorem C22_rectangle_corner_refuted : exists q, convex q /\ is_rectangle q = true /\
  forall p, qmap_inv true q p = None.
Proof.
  exists ((1, 0), (1, 1), (0, 1), (0, 0)). split; [vm_compute; repeat split; reflexivity|]. split; [vm_compute; reflexivity|].
  intros [x y]. unfold qmap_inv, rect_inv. cbn [fst snd]. rewrite sdiv_none by reflexivity. reflexivity.
Qed.
Print Assumptions C22_rectangle_corner_refuted.

(** Parallelograms: the five Newton steps with projection find the exact
    reference point of every point of the cell. *)
Theorem C22_parallelogram (q : quad) (s t : Q) : parallelogram q -> convex q -> in_unit (s, t) ->
  exists st, qmap_inv false q (qmap q s t) = Some st /\ peq st (s, t).
Proof. intros HP HC HU. apply (newton_par_iter 4); auto. apply peq_refl. Qed.
Print Assumptions C22_parallelogram.
Theorem C22_parallelogram_back (q : quad) (p : pt) : parallelogram q -> convex q -> in_quad q p ->
  exists st, qmap_inv false q p = Some st /\ peq (qmap q (fst st) (snd st)) p.
Proof.
  intros HP HC HI.
  (* reference coordinates by Cramer's rule *)
  destruct q as [[[[x0 y0] [x1 y1]] [x2 y2]] [x3 y3]]. destruct p as [px py].
  set (D := (x1 - x0) * (y3 - y0) - (y1 - y0) * (x3 - x0)).
  set (S := (px - x0) * (y3 - y0) - (py - y0) * (x3 - x0)).
  set (T := (x1 - x0) * (py - y0) - (y1 - y0) * (px - x0)).
  pose proof HP as [P1 P2]. pose proof HC as [K1 [K2 [K3 K4]]]. pose proof HI as [I1 [I2 [I3 I4]]].
  cbn [fst snd] in P1, P2. unfold orient in K1, K2, K3, K4, I1, I2, I3, I4; cbn [fst snd] in K1, K2, K3, K4, I1, I2, I3, I4.
  assert (E1 : x2 == x1 + x3 - x0) by lra. assert (E2 : y2 == y1 + y3 - y0) by lra.
  assert (HD : 0 < D). { unfold D. rewrite E1, E2 in K1. lra. }
  assert (HS : 0 <= S / D <= 1).
  { split; [apply Qle_shift_div_l; auto|apply Qle_shift_div_r; auto]; unfold S, D.
    - lra.
    - rewrite E1, E2 in I2. lra. }
  assert (HT : 0 <= T / D <= 1).
  { split; [apply Qle_shift_div_l; auto|apply Qle_shift_div_r; auto]; unfold T, D.
    - lra.
    - rewrite E1, E2 in I3. lra. }
  assert (HM : peq (px, py) (qmap (x0, y0, (x1, y1), (x2, y2), (x3, y3)) (S / D) (T / D))).
  { unfold qmap, peq. cbn [fst snd]. rewrite E1, E2. unfold S, T, D. split; field; unfold D in HD; lra. }
  destruct (newton_par_iter 4 (x0, y0, (x1, y1), (x2, y2), (x3, y3)) (px, py) (S / D) (T / D) (1 # 2) (1 # 2)) as [st [N1 N2]]; auto.
  { split; auto. }
  exists st. split; [exact N1|]. destruct st as [s' t']. destruct N2 as [N2 N3]. cbn [fst snd] in *.
  eapply peq_trans; [apply qmap_compat; [exact N2|exact N3]|]. apply peq_sym. exact HM.
Qed.
Print Assumptions C22_parallelogram_back.
Example C22_par_case : parallelogram ((0, 0), (2, 1), (3, 3), (1, 2)) /\ convex ((0, 0), (2, 1), (3, 3), (1, 2)) /\
  in_quad ((0, 0), (2, 1), (3, 3), (1, 2)) (1, 1).
Proof. vm_compute. repeat split; try reflexivity; discriminate. Qed.

(** Every convex cell: the map sends the reference square into the cell and is
    injective on it (so there is at most one reference point), and that point is
    a fixed point of the Newton step. *)
Theorem C22_convex_injective (q : quad) : convex q ->
  (forall s t, in_unit (s, t) -> in_quad q (qmap q s t)) /\
  (forall s t s' t', in_unit (s, t) -> in_unit (s', t') -> peq (qmap q s t) (qmap q s' t') -> s == s' /\ t == t') /\
  (forall p s t, in_unit (s, t) -> peq p (qmap q s t) -> exists st, newton_step q p (s, t) = Some st /\ peq st (s, t)).
Proof.
  intro HC. split; [intros; apply qmap_in; auto|]. split; [intros; eapply qmap_inj; eauto|].
  intros p s t HU E. apply newton_fixed; auto. pose proof (det_pos q s t HC HU). lra.
Qed.
Print Assumptions C22_convex_injective.

(** ** C23 *)
(** jac_r2p is the derivative: the remainder is exactly the mixed second
    derivative (hess_r2p) times h*k *)
Theorem C23_jacobian_derivative (q : quad) (s t h k : Q) :
  fst (qmap q (s + h) (t + k)) == fst (qmap q s t) + (j11 (qjac q s t) * h + j12 (qjac q s t) * k) + h * k * fst (qmixed q) /\
  snd (qmap q (s + h) (t + k)) == snd (qmap q s t) + (j21 (qjac q s t) * h + j22 (qjac q s t) * k) + h * k * snd (qmixed q).
Proof. apply qmap_expand. Qed.
Print Assumptions C23_jacobian_derivative.
(** jac_p2r exists iff the determinant is not 0, and is the inverse matrix *)
Theorem C23_jacobian_inverse (q : quad) (s t : Q) :
  let J := qjac q s t in
  (qjac_inv J = None <-> j11 J * j22 J - j12 J * j21 J == 0) /\
  forall K, qjac_inv J = Some K ->
    (j11 J * j11 K + j12 J * j21 K == 1 /\ j11 J * j12 K + j12 J * j22 K == 0 /\
     j21 J * j11 K + j22 J * j21 K == 0 /\ j21 J * j12 K + j22 J * j22 K == 1) /\
    (j11 K * j11 J + j12 K * j21 J == 1 /\ j11 K * j12 J + j12 K * j22 J == 0 /\
     j21 K * j11 J + j22 K * j21 J == 0 /\ j21 K * j12 J + j22 K * j22 J == 1).
Proof.
  intro J. split.
  - unfold qjac_inv, qdet. split.
    + destruct (Qeq_dec (j11 J * j22 J - j12 J * j21 J) 0) as [Z|Z]; auto.
      rewrite !sdiv_some by auto. discriminate.
    + intro Z. rewrite sdiv_none by auto. reflexivity.
  - intros K E. destruct (qjac_inv_ok _ _ E) as [N [E1 [E2 [E3 E4]]]]. rewrite E1, E2, E3, E4.
    unfold qdet in *. repeat split; field; auto.
Qed.
Print Assumptions C23_jacobian_inverse.
(** the determinant is positive on the reference square of a convex cell; the
    converse holds too, so the condition is exactly convexity *)
Theorem C23_det_positive (q : quad) :
  convex q <-> forall s t, in_unit (s, t) -> 0 < j11 (qjac q s t) * j22 (qjac q s t) - j12 (qjac q s t) * j21 (qjac q s t).
Proof.
  split; [intros HC s t HU; apply (det_pos q s t); auto|].
  intro H. destruct q as [[[a b] c] d].
  assert (U : forall s t, (s == 0 \/ s == 1) -> (t == 0 \/ t == 1) -> in_unit (s, t)).
  { intros s t Hs Ht. unfold in_unit. cbn [fst snd]. destruct Hs, Ht; lra. }
  pose proof (H 0 0 (U 0 0 (or_introl (Qeq_refl _)) (or_introl (Qeq_refl _)))) as A1.
  pose proof (H 1 0 (U 1 0 (or_intror (Qeq_refl _)) (or_introl (Qeq_refl _)))) as A2.
  pose proof (H 1 1 (U 1 1 (or_intror (Qeq_refl _)) (or_intror (Qeq_refl _)))) as A3.
  pose proof (H 0 1 (U 0 1 (or_introl (Qeq_refl _)) (or_intror (Qeq_refl _)))) as A4.
  fold (qdet (qjac (a, b, c, d) 0 0)) in A1. fold (qdet (qjac (a, b, c, d) 1 0)) in A2.
  fold (qdet (qjac (a, b, c, d) 1 1)) in A3. fold (qdet (qjac (a, b, c, d) 0 1)) in A4.
  rewrite det_bilinear in A1, A2, A3, A4. unfold convex. repeat split; lra.
Qed.
Print Assumptions C23_det_positive.
(** hess_p2r is the second derivative of the inverse map: moving the reference
    point by the second-order Taylor polynomial built from jac_p2r and hess_p2r
    reaches the displaced physical point up to third order in the displacement. *)
Theorem C23_hessian (q : quad) (s t : Q) (K : jac) :
  qjac_inv (qjac q s t) = Some K ->
  exists H, hess_p2r_request false true q s t = Ok H /\
  exists C, forall dx dy m, Qabs dx <= m -> Qabs dy <= m -> m <= 1 ->
    let ds := j11 K * dx + j12 K * dy + (1 # 2) * (sxx H * dx * dx + 2 * sxy H * dx * dy + syy H * dy * dy) in
    let dt := j21 K * dx + j22 K * dy + (1 # 2) * (txx H * dx * dx + 2 * txy H * dx * dy + tyy H * dy * dy) in
    Qabs (fst (qmap q (s + ds) (t + dt)) - (fst (qmap q s t) + dx)) <= C * (m * m * m) /\
    Qabs (snd (qmap q (s + ds) (t + dt)) - (snd (qmap q s t) + dy)) <= C * (m * m * m).
Proof.
  intro EK. eexists. split; [reflexivity|]. set (H := qhess_inv false q s t).
  destruct (cubic_bound (fst (qmixed q)) (j11 K) (j12 K) (j21 K) (j22 K) (sxx H) (sxy H) (syy H) (txx H) (txy H) (tyy H)) as [C1 B1].
  destruct (cubic_bound (snd (qmixed q)) (j11 K) (j12 K) (j21 K) (j22 K) (sxx H) (sxy H) (syy H) (txx H) (txy H) (tyy H)) as [C2 B2].
  exists (Qmax C1 C2). intros dx dy m H1 H2 Hm.
  destruct (hess_residual q s t K H dx dy EK eq_refl) as [R1 R2].
  assert (M0 : 0 <= m * m * m).
  { assert (0 <= m) by (pose proof (Qabs_nonneg dx); lra). repeat apply Qmult_le_0_compat; auto. }
  cbv zeta. unfold lin, sqr in R1, R2. rewrite R1, R2. split.
  - eapply Qle_trans; [apply (B1 dx dy m H1 H2 Hm)|]. apply Qmult_le_compat_r; auto. apply Q.le_max_l.
  - eapply Qle_trans; [apply (B2 dx dy m H1 H2 Hm)|]. apply Qmult_le_compat_r; auto. apply Q.le_max_r.
Qed.
Print Assumptions C23_hessian.
Example C23_case : exists K, qjac_inv (qjac trap (1 # 2) (1 # 3)) = Some K.
Proof. eexists. vm_compute. reflexivity. Qed.
(** Interval: the Jacobian and its inverse *)
Theorem C23_interval (d : itv) (s h : Q) : fst d < snd d ->
  imap d (s + h) == imap d s + ijac_r2p d * h /\ ijac_p2r d * ijac_r2p d == 1.
Proof. intro H. unfold imap, ijac_r2p, ijac_p2r. split; [ring|field; lra]. Qed.
Print Assumptions C23_interval.
(** hess_p2r without jac_p2r raises on every cell that is not a rectangle *)
Theorem C23_hessian_alone_refuted (q : quad) (s t : Q) : hess_p2r_request false false q s t = Err NameError.
Proof. reflexivity. Qed.
Print Assumptions C23_hessian_alone_refuted.

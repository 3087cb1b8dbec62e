(** * C48-C50: degrees of freedom and vertex neighbours on quadrilateral meshes *)
From Coq Require Import List Arith Bool Lia QArith Lqa.
From Verif Require Import Tree Forest Geom SpecGeom Dcel SpecDcel Quad SpecForest TreeFacts ForestFacts QuadFacts QuadSplit QuadInv SpecQuad QuadNb
  DcelFacts QuadInit QuadUniq QuadStart QuadCoords QuadHist Prop_QuadMesh Prop_Balance Fem SpecFem Prop_Inherit Dof SpecDof DofFacts DofInv
  Dof2 SpecDof2 SurfFacts Node2Facts VertNb Surf2 Dof2Facts Dof2Hist Grid2 GridFacts BalSets.
Import ListNotations.
Open Scope nat_scope.

Lemma keeps_slot2 s s' : keeps' s s' -> keeps s s'.
Proof. intros K p k d H. apply slot_dof. apply K. apply slot_dof. auto. Qed.
Lemma filled_slots2 n s p : wf n s -> 0 < n -> (forall k, k < n -> slot s p k <> None) -> filled n s p.
Proof.
  intros W L C. assert (exists l, gd s p = Some l) as [l E].
  { specialize (C 0 L). unfold slot in C. destruct (gd s p) as [l|]; [eauto|congruence]. }
  exists l. split; auto. split; [apply (W p l E)|]. intros k Hk. specialize (C k Hk). destruct (slot s p k) as [d|] eqn:Ed; [|congruence].
  exists d. apply slot_dof. auto.
Qed.
Lemma nd2_pos e : 0 < nd2 e.
Proof. destruct e; cbv; lia. Qed.

(** Any history of splits, labels and distributions before, any submesh, every
    element: if the mesh is 2:1 balanced, distribute_dofs raises nothing, keeps
    every dof that was assigned, fills all slots of all cells of the submesh, with
    different dofs in each cell, and all dofs together are 0, ..., n-1, where n is
    the number of dofs that is kept; otherwise it raises AssertionError (also if
    only cells outside the submesh are not balanced). *)
Theorem C48_distribute pts faces e m s sf : dof_history2 edit pts faces e m s ->
  (two_to_one (face_adj faces) (cells m) None ->
   exists s', distribute2 e m sf s = Ok s' /\ keeps s s' /\ numbered s' /\
     forall p, in_sub (cells m) sf p -> filled (n_dofs D2 e) s' p /\
       forall k j d, dof_at s' p k d -> dof_at s' p j d -> k = j) /\
  (~ two_to_one (face_adj faces) (cells m) None -> distribute2 e m sf s = Err AssertionError).
Proof.
  intro H. destruct (history_good edit pts faces e m s (fun _ _ x => x) H) as [[m0 MH] G].
  destruct (C30_is_balanced pts faces m0 m None MH) as [b [Eb Ib]]. split.
  - intro TT. apply Ib in TT. subst b. destruct (distribute2_good pts faces m0 m e sf s MH G Eb) as [s' [E [G' [K C]]]].
    exists s'. split; auto. split; [apply keeps_slot2; auto|]. pose proof (good2_base _ _ _ _ G') as BI. split; [eapply base_numbered; apply BI|].
    intros p Hp. split; [apply filled_slots2; [apply BI|apply nd2_pos|apply C; auto]|].
    intros k j d H1 H2. apply slot_dof in H1, H2. unfold good2 in G'. destruct (torn e) eqn:T.
    + destruct G' as [_ I]. destruct (I p k p j d H1 H2) as [X|X]; apply heir_same in X; auto; congruence.
    + destruct G' as [[W _] F]. pose proof (history_minv _ _ _ _ MH) as M. destruct MH as [_ [QF _]].
      apply (nodes2_inj e); auto; [eapply slot_bound; eauto|eapply slot_bound; eauto|].
      apply (surf_cell pts faces m QF M p). apply (F p k p j d H1 H2).
  - intro NT. unfold distribute2. rewrite Eb. destruct b; [exfalso; tauto|]. reflexivity.
Qed.
Print Assumptions C48_distribute.

(** At any time, continuous elements: two slots of any two cells that hold one dof
    are at one point of the surface, and so at one point of the plane. *)
Theorem C48_same_point pts faces e m s p k x q j y d : dof_history2 edit pts faces e m s -> torn e = false ->
  dof_at s p k d -> dof_at s q j d -> position2 e m p k x -> position2 e m q j y ->
  (exists a b, node_at e p k a /\ node_at e q j b /\ glued (face_adj faces) a b) /\ peq x y.
Proof.
  intros H T H1 H2 X Y. destruct (history_good edit pts faces e m s (fun _ _ x => x) H) as [[m0 MH] G].
  pose proof (history_minv _ _ _ _ MH) as M. destruct MH as [_ [QF _]]. apply slot_dof in H1, H2. unfold good2 in G. rewrite T in G. destruct G as [_ F].
  pose proof (F p k q j d H1 H2) as GL. destruct (position2_plane pts faces m M e p k x X) as [Lk [_ Ex]]. destruct (position2_plane pts faces m M e q j y Y) as [Lj [_ Ey]].
  split.
  - exists (place p (node2 e k)), (place q (node2 e j)). split; [exists (node2 e k); split; auto; apply nodes2_nth; auto|].
    split; [exists (node2 e j); split; auto; apply nodes2_nth; auto|]. exact GL.
  - eapply peq_t; [exact Ex|]. eapply peq_t; [|apply peq_s; exact Ey]. apply (plane_glued pts faces m QF M). exact GL.
Qed.
Print Assumptions C48_same_point.

(** A discontinuous element shares dofs only between a cell and its descendants,
    at the same point. *)
Lemma heir_plane pts faces m e y z : minv pts faces m -> fst y <> [] -> heir (inherited (ref2 e)) 4 y z ->
  glued (face_adj faces) (place (fst y) (node2 e (snd y))) (place (fst z) (node2 e (snd z))).
Proof.
  intros M Hy H. induction H as [y|y p j i k H IH Hi HI]; [apply gl_same; apply peq_r|]. cbn [fst snd] in *.
  assert (Np : p <> []).
  { apply heir_prefix in H. destruct H as [r E]. cbn [fst] in E. intros ->. symmetry in E. apply app_eq_nil in E. tauto. }
  eapply gl_trans; [apply IH; auto|]. rewrite place_snoc by auto. apply glue_place. apply (inh2_place e i j k Hi HI).
Qed.
Theorem C48_torn pts faces e m s p k x q j y d : dof_history2 edit pts faces e m s -> torn e = true ->
  dof_at s p k d -> dof_at s q j d -> position2 e m p k x -> position2 e m q j y ->
  (prefix p q \/ prefix q p) /\ peq x y.
Proof.
  intros H T H1 H2 X Y. destruct (history_good edit pts faces e m s (fun _ _ x => x) H) as [[m0 MH] G].
  pose proof (history_minv _ _ _ _ MH) as M. destruct MH as [_ [QF _]]. apply slot_dof in H1, H2. unfold good2 in G. rewrite T in G. destruct G as [_ F].
  destruct (position2_plane pts faces m M e p k x X) as [Lk [Hp Ex]]. destruct (position2_plane pts faces m M e q j y Y) as [Lj [Hq Ey]].
  assert (Z : (prefix p q \/ prefix q p) /\ peq (plane m (place p (node2 e k))) (plane m (place q (node2 e j)))).
  { destruct (F p k q j d H1 H2) as [Z|Z]; (split; [apply heir_prefix in Z; auto|]).
    - apply (plane_glued pts faces m QF M). apply (heir_plane pts faces m e (p, k) (q, j) M); auto. eapply here_ne; eauto.
    - apply peq_s. apply (plane_glued pts faces m QF M). apply (heir_plane pts faces m e (q, j) (p, k) M); auto. eapply here_ne; eauto. }
  destruct Z as [Z1 Z2]. split; auto. eapply peq_t; [exact Ex|]. eapply peq_t; [exact Z2|apply peq_s; exact Ey].
Qed.
Print Assumptions C48_torn.

(** ** C49: one number per point *)
(** As long as the mesh is not refined after the first distribution (labels may
    change, and any submeshes may be distributed, one after the other): two slots
    of any two cells, of any levels, hold the same dof if and only if they are at
    the same point of the surface. *)
Theorem C49_one_number pts faces e m s p k a d q j b d' : dof_history2 relabel pts faces e m s -> torn e = false ->
  dof_at s p k d -> dof_at s q j d' -> node_at e p k a -> node_at e q j b ->
  (d = d' <-> glued (face_adj faces) a b).
Proof.
  intros H T H1 H2 [x [X ->]] [y [Y ->]]. apply slot_dof in H1, H2. destruct (history_inv pts faces e m s T H) as [P [_ [CL _]]].
  destruct (nodes2_at _ _ _ X) as [Lk ->]. destruct (nodes2_at _ _ _ Y) as [Lj ->]. apply (CL p k q j d d' H1 H2).
Qed.
Print Assumptions C49_one_number.
Lemma relabel_any pts faces e m s : dof_history2 relabel pts faces e m s -> dof_history2 edit pts faces e m s.
Proof.
  induction 1 as [m0 m H|m s sf s' H IH R E|m s m' H IH C]; [econstructor; eauto|econstructor 2; eauto|econstructor 3; eauto].
  apply relabel_edit. auto.
Qed.
(** On a rectangular grid, that is: if and only if they are at the same point of
    the plane. *)
Theorem C49_grid (xa xb ya yb : Q) nx ny e m s p k x d q j y d' : (xa < xb)%Q -> (ya < yb)%Q ->
  dof_history2 relabel (grid_points xa xb ya yb nx ny) (grid_faces nx ny) e m s -> torn e = false ->
  dof_at s p k d -> dof_at s q j d' -> position2 e m p k x -> position2 e m q j y ->
  (d = d' <-> peq x y).
Proof.
  intros Hx Hy H T H1 H2 X Y. split.
  - intros <-. apply (C48_same_point _ _ e m s p k x q j y d (relabel_any _ _ _ _ _ H) T H1 H2 X Y).
  - intro E. destruct (history_good relabel _ _ e m s relabel_edit H) as [[m0 MH] _]. pose proof (history_minv _ _ _ _ MH) as M.
    destruct (position2_plane _ _ m M e p k x X) as [Lk [Hp Ex]]. destruct (position2_plane _ _ m M e q j y Y) as [Lj [Hq Ey]].
    assert (RT : forall p, here m p -> hd 0 p < nx * ny).
    { intros u Hu. destruct u as [|r u]; [destruct (here_ne m _ Hu); auto|]. cbn [hd]. rewrite <- grid_faces_length. apply (m_roots _ _ _ M).
      apply (here_prefix m [r] u); [discriminate|exact Hu]. }
    apply (C49_one_number _ _ e m s p k (place p (node2 e k)) d q j (place q (node2 e j)) d' H T H1 H2);
      [exists (node2 e k); split; auto; apply nodes2_nth; auto|exists (node2 e j); split; auto; apply nodes2_nth; auto|].
    apply (grid_one_point xa xb ya yb nx ny m M Hx Hy); auto; try (apply unit_root; apply nodes2_unit).
    eapply peq_t; [apply peq_s; exact Ex|]. eapply peq_t; [exact E|exact Ey].
Qed.
Print Assumptions C49_grid.

(** *** The claim for every history is false *)
(** a program: what is done to the mesh, and distributions *)
Inductive cmd2 : Type := Edit (c : cmd) | Distribute (sf : option flag).
Definition run_cmd2 (e : elem) (x : mesh2 * dofs) (c : cmd2) : res (mesh2 * dofs) :=
  match c with
  | Edit c => bind (run_cmd (fst x) c) (fun m => Ok (m, snd x))
  | Distribute sf => if subtrees_rooted sf (cells (fst x)) then bind (distribute2 e (fst x) sf (snd x)) (fun s => Ok (fst x, s)) else Err AssertionError
  end.
Definition run2 (e : elem) (cs : list cmd2) (x : mesh2 * dofs) : res (mesh2 * dofs) := fold_res (run_cmd2 e) cs x.
Definition only_marks (c : cmd2) : bool := match c with Edit (CSplit _ _) => false | _ => true end.
Lemma run2_history pts faces e cs : forall m s m' s', run2 e cs (m, s) = Ok (m', s') ->
  (dof_history2 edit pts faces e m s -> dof_history2 edit pts faces e m' s') /\
  (forallb only_marks cs = true -> dof_history2 relabel pts faces e m s -> dof_history2 relabel pts faces e m' s').
Proof.
  unfold run2. induction cs as [|c cs IH]; intros m s m' s' E; cbn [fold_res] in E; [injection E as <- <-; auto|].
  destruct (run_cmd2 e (m, s) c) as [[m1 s1]|] eqn:E1; cbn [bind] in E; [|discriminate]. destruct (IH _ _ _ _ E) as [IH1 IH2].
  destruct c as [c|sf]; cbn [run_cmd2 fst snd] in E1.
  - destruct (run_cmd m c) as [m2|] eqn:E2; cbn [bind] in E1; [|discriminate]. injection E1 as <- <-. split.
    + intro H. apply IH1. apply (DH2_change _ _ _ _ m s m2 H). destruct c; cbn [run_cmd] in E2; [eapply ed_split; eauto|injection E2 as <-; constructor].
    + cbn [forallb]. intros Z H. apply andb_true_iff in Z. destruct Z as [Z1 Z2]. apply IH2; auto. apply (DH2_change _ _ _ _ m s m2 H).
      destruct c; cbn [run_cmd] in E2; [discriminate Z1|injection E2 as <-; constructor].
  - destruct (subtrees_rooted sf (cells m)) eqn:R; [|discriminate]. apply rooted_b in R.
    destruct (distribute2 e m sf s) as [s2|] eqn:E2; cbn [bind] in E1; [|discriminate]. injection E1 as <- <-. split.
    + intro H. apply IH1. apply (DH2_distribute _ _ _ _ m s sf s2 H R E2).
    + cbn [forallb]. intros Z H. apply andb_true_iff in Z. destruct Z as [Z1 Z2]. apply IH2; auto. apply (DH2_distribute _ _ _ _ m s sf s2 H R E2).
Qed.
Definition slot_pos (e : elem) (m : mesh2) (p : path) (k : nat) : option pt :=
  match fget (cells m) p, nth_error (reference_nodes2 e) k with
  | Some c, Some x => match coords m c with [v0; v1; v2; v3] => Some (qmap (v0, v1, v2, v3) (fst x) (snd x)) | _ => None end
  | _, _ => None end.
Lemma slot_pos_ok e m p k z : slot_pos e m p k = Some z -> position2 e m p k z.
Proof.
  unfold slot_pos, position2. destruct (fget (cells m) p) as [c|]; [|discriminate]. destruct (nth_error (reference_nodes2 e) k) as [x|]; [|discriminate].
  destruct (coords m c) as [|v0 [|v1 [|v2 [|v3 [|v4 l]]]]] eqn:E; try discriminate. intros [= <-]. exists c, x, v0, v1, v2, v3. auto.
Qed.
(** two slots at one point with two dofs *)
Definition two_numbers (e : elem) (m : mesh2) (s : dofs) (p : path) (k : nat) (q : path) (j : nat) : bool :=
  match slot s p k, slot s q j, slot_pos e m p k, slot_pos e m q j with
  | Some d, Some d', Some x, Some y => negb (d =? d') && peqb x y
  | _, _, _, _ => false end.
Lemma two_numbers_ok e m s p k q j : two_numbers e m s p k q j = true ->
  exists d d' x y, dof_at s p k d /\ dof_at s q j d' /\ position2 e m p k x /\ position2 e m q j y /\ peq x y /\ d <> d'.
Proof.
  unfold two_numbers. destruct (slot s p k) as [d|] eqn:E1; [|discriminate]. destruct (slot s q j) as [d'|] eqn:E2; [|discriminate].
  destruct (slot_pos e m p k) as [x|] eqn:X; [|discriminate]. destruct (slot_pos e m q j) as [y|] eqn:Y; [|discriminate].
  intro Z. apply andb_true_iff in Z. destruct Z as [Z1 Z2]. exists d, d', x, y. split; [apply slot_dof; auto|]. split; [apply slot_dof; auto|].
  split; [apply slot_pos_ok; auto|]. split; [apply slot_pos_ok; auto|]. split; [apply peqb_spec; auto|].
  intros ->. rewrite Nat.eqb_refl in Z1. discriminate.
Qed.
Definition grid_run2 (nx ny : nat) (xb yb : Q) (cs : list cmd) (e : elem) (cs2 : list cmd2) : res (mesh2 * dofs) :=
  bind (grid_run nx ny xb yb cs) (fun m => run2 e cs2 (m, no_dofs)).
Lemma grid_run2_history nx ny xb yb cs e cs2 m s : (0 < xb)%Q -> (0 < yb)%Q -> grid_run2 nx ny xb yb cs e cs2 = Ok (m, s) ->
  let H c := dof_history2 c (grid_points 0 xb 0 yb nx ny) (grid_faces nx ny) e m s in H edit /\ (forallb only_marks cs2 = true -> H relabel).
Proof.
  intros Hx Hy E H. unfold grid_run2 in E. destruct (grid_run nx ny xb yb cs) as [m1|] eqn:E1; cbn [bind] in E; [|discriminate].
  destruct (grid_run_history nx ny xb yb cs m1 Hx Hy E1) as [m0 MH].
  destruct (run2_history (grid_points 0 xb 0 yb nx ny) (grid_faces nx ny) e cs2 _ _ _ _ E) as [A B].
  split; [apply A; eapply DH2_start; eauto|intro Z; apply B; auto; eapply DH2_start; eauto].
Qed.

(** Two cells side by side, the right one refined; distribute; refine the left one;
    distribute: a point of the common side has two dofs, one for the children of
    each cell (linear and cubic elements: the midpoint; quadratic: that of its
    first half). *)
Definition prog1 : list cmd2 := [Distribute None; Edit (CSplit None [0]); Distribute None].
Definition check2 (e : elem) (r : res (mesh2 * dofs)) (P : mesh2 -> dofs -> bool) : bool := match r with Ok (m, s) => P m s | Err _ => false end.
Definition mid1 (e : elem) : nat := match e with Q2 => 5 | _ => 2 end.
Definition mid2 (e : elem) : nat := match e with Q2 => 7 | _ => 3 end.
Lemma prog1_run e : torn e = false -> check2 e (grid_run2 2 1 2 1 [CSplit None [1]] e prog1) (fun m s => two_numbers e m s [0; 1] (mid1 e) [1; 0] (mid2 e)) = true.
Proof. destruct e; intro T; try discriminate T; vm_cast_no_check (eq_refl true). Qed.
Lemma check2_ok e r P : check2 e r P = true -> exists m s, r = Ok (m, s) /\ P m s = true.
Proof. destruct r as [[m s]|]; [eauto|discriminate]. Qed.
Theorem C49_refinement_refuted e : torn e = false -> exists m s p k d q j d' x y,
  dof_history2 edit (grid_points 0 2 0 1 2 1) (grid_faces 2 1) e m s /\
  dof_at s p k d /\ dof_at s q j d' /\ position2 e m p k x /\ position2 e m q j y /\ peq x y /\ d <> d'.
Proof.
  intro T. destruct (check2_ok _ _ _ (prog1_run e T)) as [m [s [R E]]].
  destruct (grid_run2_history 2 1 2 1 _ e prog1 m s eq_refl eq_refl R) as [H _].
  destruct (two_numbers_ok _ _ _ _ _ _ _ E) as [d [d' [x [y Z]]]]. exists m, s, [0; 1], (mid1 e), d, [1; 0], (mid2 e), d', x, y. split; [exact H|exact Z].
Qed.
Print Assumptions C49_refinement_refuted.

(** Two faces that have only one vertex in common: the vertex has two dofs,
    without any refinement (share_dofs_with_neighbors reaches a cell only across
    sides). *)
Definition bow_pts : list pt := [(0, 0); (1, 0); (1, 1); (0, 1); (2, 1); (2, 2); (1, 2)]%Q.
Definition bow_faces : list (list nat) := [[0; 1; 2; 3]; [2; 4; 5; 6]].
Lemma bow_mesh : polygon_mesh (length bow_pts) bow_faces /\ quad_faces bow_faces.
Proof.
  split; [split; [|split]|].
  - repeat constructor; discriminate.
  - repeat constructor.
  - vm_compute. repeat constructor; cbn; intuition discriminate.
  - repeat constructor; cbn; intuition discriminate.
Qed.
Definition bow_run (e : elem) (cs : list cmd2) : res (mesh2 * dofs) :=
  bind (determine2 (length bow_pts) bow_faces) (fun d => bind (mesh_of_dcel false bow_pts d) (fun m => run2 e cs (m, no_dofs))).
Lemma bow_history e cs m s : bow_run e cs = Ok (m, s) -> forallb only_marks cs = true -> dof_history2 relabel bow_pts bow_faces e m s.
Proof.
  unfold bow_run. intros E F. apply bind_ok in E. destruct E as [d [E1 E]]. apply bind_ok in E. destruct E as [m0 [E2 E]].
  destruct (run2_history bow_pts bow_faces e cs _ _ _ _ E) as [_ H]. apply H; auto. apply (DH2_start _ _ _ _ m0 m0).
  destruct bow_mesh as [B1 B2]. split; [exact B1|]. split; [exact B2|]. split; [exists d; auto|constructor].
Qed.
Lemma bow_check e : torn e = false -> check2 e (bow_run e [Distribute None]) (fun m s => two_numbers e m s [0] 2 [1] 0) = true.
Proof. destruct e; intro T; try discriminate T; vm_cast_no_check (eq_refl true). Qed.
Theorem C49_one_vertex_refuted e : torn e = false -> exists m s p k d q j d' x y,
  dof_history2 relabel bow_pts bow_faces e m s /\
  dof_at s p k d /\ dof_at s q j d' /\ position2 e m p k x /\ position2 e m q j y /\ peq x y /\ d <> d'.
Proof.
  intro T. destruct (check2_ok _ _ _ (bow_check e T)) as [m [s [R E]]].
  pose proof (bow_history e [Distribute None] m s R eq_refl) as H.
  destruct (two_numbers_ok _ _ _ _ _ _ _ E) as [d [d' [x [y Z]]]]. exists m, s, [0], 2, d, [1], 0, d', x, y. split; [exact H|exact Z].
Qed.
Print Assumptions C49_one_vertex_refuted.

(** ** C50: get_neighbors(vertex) *)
(** The vertex at corner [k] of any cell: the cells returned are exactly the other
    cells that are reached from it by crossing sides at that vertex, each once;
    they have the same level and the vertex is a corner of each. *)
Lemma is_cell_here m p : is_cell m p <-> here m p.
Proof. unfold is_cell. rewrite here_fget. tauto. Qed.
Lemma around_is_cell m adj x y : around_corner adj (is_cell m) x y <-> around_corner adj (here m) x y.
Proof. split; apply around_ext; intro p; [|symmetry]; apply is_cell_here. Qed.
Lemma orbit_dom pts faces m v x y : quad_faces faces -> minv pts faces m -> dom m v x -> around_corner (face_adj faces) (here m) x y -> dom m v y.
Proof.
  intros QF M D O. induction O as [x|x y z O IH C]; auto. specialize (IH D). pose proof IH as [A1 [A2 _]].
  apply (step_cases pts faces m QF M) in C; auto. destruct C as [_ [_ [C|C]]]; [apply (fw_dom pts faces m M v y z IH C)|apply (bw_dom pts faces m M v y z IH C)].
Qed.
Lemma side_dom pts faces m p k h : minv pts faces m -> is_side m p k h -> dom m (hbase (he (hp m) h)) (p, k).
Proof. intros M Hk. apply is_side_iff in Hk; [|apply (m_s _ _ _ M)]. destruct Hk as [Hp [Lk ->]]. split; auto. Qed.
Theorem C50_vertex_neighbors pts faces m0 m p k h : mesh_history pts faces m0 m -> is_side m p k h ->
  let v := hbase (he (hp m) h) in
  exists l, vertex_neighbors m p v None = Ok l /\ NoDup l /\
    (forall q, In q l <-> q <> p /\ exists d, around_corner (face_adj faces) (is_cell m) (p, k) (q, d)) /\
    forall q, In q l -> length q = length p /\ exists d g, is_side m q d g /\ hbase (he (hp m) g) = v.
Proof.
  intros H Hk v. pose proof (history_minv _ _ _ _ H) as M. destruct H as [_ [QF _]]. pose proof (side_dom pts faces m p k h M Hk) as D0.
  destruct (vertex_neighbors_ok pts faces m QF M v (p, k) D0) as [l [E [ND HL]]]. cbn [fst] in *. exists l. split; auto. split; auto. split.
  - intro q. rewrite HL. split; (intros [Nq [d O]]; split; auto; exists d; apply around_is_cell; auto).
  - intros q Iq. apply HL in Iq. destruct Iq as [_ [d O]]. pose proof (orbit_dom pts faces m v _ _ QF M D0 O) as [A1 [A2 A3]]. cbn [fst snd] in *. split.
    + clear - O. remember (p, k) as x eqn:Ex. remember (q, d) as y eqn:Ey. revert q d Ey. induction O as [x|x y z O IH C]; intros q d ->; [congruence|].
      destruct C as [_ [_ [a [b [N _]]]]]. cbn [fst] in N. rewrite (nb_length _ _ _ _ _ N). destruct y as [q' d']. apply (IH Ex q' d' eq_refl).
    + exists d, (side m q d). split; [apply is_side_iff; [apply (m_s _ _ _ M)|auto]|auto].
Qed.
Print Assumptions C50_vertex_neighbors.
(** With a flag: only the cells with the flag, provided that one of the cells around
    the vertex has no neighbour of the same level on the next side (the vertex is
    at the boundary of the cells of this level).  Missing: if the cells close up
    around the vertex, the flag is ignored. *)
Definition all_around (faces : list (list nat)) (m : mesh2) (p : path) (k : nat) : Prop :=
  forall q d, around_corner (face_adj faces) (is_cell m) (p, k) (q, d) ->
    exists q' j, is_cell m q' /\ nb (face_adj faces) q ((d + 3) mod 4) q' j.
Theorem C50_flag_partial pts faces m0 m p k h g : mesh_history pts faces m0 m -> is_side m p k h ->
  let v := hbase (he (hp m) h) in
  exists l l', vertex_neighbors m p v None = Ok l /\ vertex_neighbors m p v (Some g) = Ok l' /\
    (~ all_around faces m p k -> forall q, In q l' <-> In q l /\ in_sub (cells m) (Some g) q) /\
    (all_around faces m p k -> l' = l).
Proof.
  intros H Hk v. pose proof (history_minv _ _ _ _ H) as M. destruct H as [_ [QF _]]. pose proof (side_dom pts faces m p k h M Hk) as D0.
  destruct (vertex_neighbors_full pts faces m QF M v (p, k) D0) as [l [b [E [Eb _]]]]. cbn [fst] in *.
  exists l, (if b then l else restrict m (Some g) l). rewrite !E. split; [destruct b; reflexivity|]. split; [reflexivity|].
  assert (AA : all_around faces m p k <-> b = true).
  { rewrite Eb. unfold all_around, fw. split.
    - intros Z [q d] O. pose proof (orbit_dom pts faces m v _ _ QF M D0 O) as [A1 [A2 _]]. cbn [fst snd] in *.
      destruct (Z q d) as [q' [j [Cq N]]]; [apply around_is_cell; auto|]. apply is_cell_here in Cq.
      assert (via m (side m q ((d + 3) mod 4)) = Some (q', j)); [|congruence]. apply (proj2 (via_spec pts faces m M q ((d + 3) mod 4) q' j A1 (m4_lt _))).
      destruct (nb_lt pts faces m QF M _ _ _ _ N) as [_ Lj]. split; auto. split; auto. apply (twin_iff pts faces m QF M q ((d + 3) mod 4) q' j); auto; apply m4_lt.
    - intros Z q d O. apply around_is_cell in O. pose proof (orbit_dom pts faces m v _ _ QF M D0 O) as [A1 [A2 _]]. cbn [fst snd] in *.
      specialize (Z (q, d) O). cbn [fst snd] in Z. destruct (via m (side m q ((d + 3) mod 4))) as [[q' j]|] eqn:V; [|congruence].
      apply (proj1 (via_spec pts faces m M q ((d + 3) mod 4) q' j A1 (m4_lt _))) in V. destruct V as [Hq [Lj V]]. exists q', j. split; [apply is_cell_here; auto|].
      apply (twin_iff pts faces m QF M q ((d + 3) mod 4) q' j); auto; apply m4_lt. }
  split.
  - intros N q. destruct b; [tauto|]. cbn [restrict]. rewrite filter_In. unfold in_sub, marked_at. cbn [fl_ok]. split; intros [Hq Z]; split; auto.
    + destruct (fget (cells m) q) as [c|]; [eauto|discriminate].
    + destruct Z as [c [-> Z]]. exact Z.
  - intro Z. apply AA in Z. rewrite Z. reflexivity.
Qed.
Print Assumptions C50_flag_partial.
(** the flag is ignored around the interior vertex of the 2 x 2 grid *)
Definition flag_ignored (m : mesh2) : bool :=
  match fget (cells m) [0] with
  | Some c => match nth_error (n_data c) 2 with
              | Some h => match vertex_neighbors m [0] (hbase (he (hp m) h)) (Some 7) with
                          | Ok l => existsb (fun q => negb (marked_at (cells m) q 7)) l | Err _ => false end
              | None => false end
  | None => false end.
Lemma flag_case : match grid_run 2 2 1 1 [CMark 7 [1]] with Ok m => flag_ignored m | Err _ => false end = true.
Proof. vm_cast_no_check (eq_refl true). Qed.
Theorem C50_flag_refuted :
  ~ (forall pts faces m0 m p k h g l, mesh_history pts faces m0 m -> is_side m p k h ->
       vertex_neighbors m p (hbase (he (hp m) h)) (Some g) = Ok l -> forall q, In q l -> in_sub (cells m) (Some g) q).
Proof.
  intro Z. pose proof flag_case as C. destruct (grid_run 2 2 1 1 [CMark 7 [1]]) as [m|] eqn:R; [|discriminate].
  destruct (grid_run_history 2 2 1 1 _ m eq_refl eq_refl R) as [m0 H]. unfold flag_ignored in C.
  destruct (fget (cells m) [0]) as [c|] eqn:Fc; [|discriminate]. destruct (nth_error (n_data c) 2) as [h|] eqn:Eh; [|discriminate].
  destruct (vertex_neighbors m [0] (hbase (he (hp m) h)) (Some 7)) as [l|] eqn:V; [|discriminate].
  apply existsb_exists in C. destruct C as [q [Iq C]]. assert (Hs : is_side m [0] 2 h) by (exists c; auto).
  destruct (Z _ _ _ _ _ _ _ _ _ H Hs V q Iq) as [c' [F' L']]. unfold marked_at in C. rewrite F' in C. cbn [fl_ok] in L'. rewrite L' in C. discriminate.
Qed.
Print Assumptions C50_flag_refuted.

(** ** Concrete cases *)
(** two cells, the first refined, with a label 7 on a rooted submesh: the submesh
    is distributed first, then everything *)
Definition cmds_a : list cmd := [CMark 7 [0]; CMark 7 [1]; CSplit None [0]].
Definition prog_a : list cmd2 := [Distribute (Some 7); Edit (CMark 3 [0; 1]); Distribute None].
Definition table (s : dofs) (l : list path) : list (list (option nat)) := map (fun p => match gd s p with Some d => d | None => [] end) l.
Example C49_case : exists m s, grid_run2 2 1 2 1 cmds_a Q1 prog_a = Ok (m, s) /\
  dof_history2 relabel (grid_points 0 2 0 1 2 1) (grid_faces 2 1) Q1 m s /\ dcount s = 11 /\
  table s [[0]; [1]; [0; 0]; [0; 1]; [0; 2]; [0; 3]] = map (map Some)
    [[0; 1; 2; 3]; [1; 4; 5; 2]; [0; 6; 7; 8]; [6; 1; 9; 7]; [7; 9; 2; 10]; [8; 7; 10; 3]].
Proof.
  assert (C : check2 Q1 (grid_run2 2 1 2 1 cmds_a Q1 prog_a) (fun _ s => (dcount s =? 11) && (if list_eq_dec (list_eq_dec (fun x y : option nat => ltac:(decide equality; apply Nat.eq_dec)))
      (table s [[0]; [1]; [0; 0]; [0; 1]; [0; 2]; [0; 3]])
      (map (map Some) [[0; 1; 2; 3]; [1; 4; 5; 2]; [0; 6; 7; 8]; [6; 1; 9; 7]; [7; 9; 2; 10]; [8; 7; 10; 3]]) then true else false)) = true) by vm_cast_no_check (eq_refl true).
  destruct (check2_ok _ _ _ C) as [m [s [R E]]]. exists m, s. split; [exact R|].
  split; [apply (grid_run2_history 2 1 2 1 _ Q1 prog_a m s eq_refl eq_refl R); reflexivity|].
  apply andb_true_iff in E. destruct E as [E1 E2]. apply Nat.eqb_eq in E1. split; auto.
  destruct (list_eq_dec _ _ _) as [E|] in E2; [exact E|discriminate].
Qed.
(** a mesh that is not balanced (C48: AssertionError) and one that is *)
Example C48_case : match grid_run2 2 1 2 1 cmds3 Q2 [Distribute None] with Err AssertionError => true | _ => false end = true /\
  check2 Q3 (grid_run2 2 1 2 1 cmds_a Q3 prog_a) (fun _ s => dcount s =? 61) = true /\
  check2 DQ2 (grid_run2 2 1 2 1 cmds_a DQ2 prog_a) (fun _ s => dcount s =? 45) = true.
Proof. split; [|split]; vm_cast_no_check (eq_refl true). Qed.
(** the vertex neighbours of the four cells at an interior vertex *)
Example C50_case : match grid_run 2 2 1 1 [CSplit None [0]; CSplit None [1]] with
  | Ok m => match fget (cells m) [0; 1] with
            | Some c => map (fun h => match vertex_neighbors m [0; 1] (hbase (he (hp m) h)) None with Ok l => l | Err _ => [[]] end) (n_data c)
            | None => [] end
  | Err _ => [] end = [[[0; 0]]; [[1; 0]]; [[1; 0]; [1; 3]; [0; 2]]; [[0; 2]; [0; 3]; [0; 0]]].
Proof. vm_compute. reflexivity. Qed.

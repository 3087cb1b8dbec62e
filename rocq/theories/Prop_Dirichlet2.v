(** * C87: dof vertices and Dirichlet conditions of problems on quadrilateral meshes *)
From Coq Require Import List Arith Bool Lia QArith Qabs Lqa Permutation.
From Verif Require Import Tree Forest Geom SpecGeom Dcel SpecDcel Quad SpecForest TreeFacts ForestFacts QuadFacts QuadSplit QuadInv SpecQuad QuadNb
  DcelFacts QuadInit QuadUniq QuadStart QuadCoords QuadHist Grid2 Prop_QuadMesh BalSets Prop_Balance Fem SpecFem ShapeFacts Prop_Shape Prop_Inherit Dof SpecDof DofFacts DofInv Dof2 SpecDof2
  SurfFacts Node2Facts VertNb Surf2 Dof2Facts Dof2Hist Prop_Dof2 Region SpecRegion RegionDof SpecRegionDof Prop_RegionMark Prop_RegionDof Problem2 SpecProblem2 Problem2Facts DofVert Dirichlet1 DofVert2 SpecDofVert2 DofVert2Facts DofVert2Hist.
From Verif Require Prop_Problem AssembleFacts Assemble Prop_Grid GridFacts.
Import ListNotations.
Open Scope nat_scope.

Lemma id_edit : forall m m', edit m m' -> edit m m'. Proof. auto. Qed.
(** distribute_dofs, together with the recording of the dof vertices, works if and only if the
    whole mesh is 2:1 balanced; dofs and vertices are kept *)
Theorem C87_total pts faces e m s v sf : vertex_history2 edit pts faces e m s v ->
  (two_to_one (face_adj faces) (cells m) None ->
   exists s' v', distribute_dofs2 e m sf (s, v) = Ok (s', v') /\ SpecDof.keeps s s' /\ (forall d, has_vertex2 v d -> has_vertex2 v' d) /\
     forall p, in_sub (cells m) sf p -> filled (n_dofs D2 e) s' p) /\
  (~ two_to_one (face_adj faces) (cells m) None -> distribute_dofs2 e m sf (s, v) = Err AssertionError).
Proof.
  intros H. destruct (vertex_dof2 edit pts faces e m s v id_edit H) as [HD V]. destruct (history_good edit _ _ _ _ _ id_edit HD) as [[m0 MH] _].
  destruct (C48_distribute pts faces e m s sf HD) as [A B]. unfold distribute_dofs2. cbn [fst snd]. split.
  - intros T. destruct (A T) as [s1 [E1 [K [_ F]]]]. rewrite E1. cbn [bind]. assert (V' : vsound2 (located2 e m s1) v) by (eapply vsound_mono2; [|exact V]; intros d p x; apply located_dofs; exact K).
    destruct (set_ok2 MH e s1 sf v (fun p Hp => proj1 (F p Hp)) V') as [v1 [E2 [V1 [MN _]]]]. rewrite E2. cbn [bind]. exists s1, v1. split; [reflexivity|]. split; [exact K|]. split; [|intros p Hp; apply F; exact Hp].
    intros d [x Hx]. assert (KN : known2 v (Some d)).
    { unfold get_dof_vertices2 in Hx. cbn [fold_res] in Hx. unfold dof_vertex2 in Hx. destruct (dv_get2 v (Some d)) as [l|] eqn:El; [|discriminate Hx].
      apply dv_get_in2 in El. apply (in_map fst) in El. exact El. }
    destruct (known_vertex2 e m s1 v1 d V1 (MN _ KN)) as [y [Ey _]]. exists y. exact Ey.
  - intros T. rewrite (B T). reflexivity.
Qed.
Print Assumptions C87_total.
(** get_dof_vertices(dofs) returns one point for each dof, in the same order, and the dof is at
    that point; so do the points of get_dof_vertices(dof, cells) *)
Theorem C87_positions pts faces e m s v : vertex_history2 edit pts faces e m s v ->
  (forall ds xs, get_dof_vertices2 None v (map Some ds) = Ok xs -> Forall2 (at_point e m s) ds xs) /\
  (forall c d xs, get_dof_vertices2 c v [Some d] = Ok xs -> forall x, In x xs -> at_point e m s d x).
Proof.
  intros H. destruct (vertex_dof2 edit pts faces e m s v id_edit H) as [_ V]. split; [exact (vertices_at2 e m s v V)|].
  intros c d xs E. unfold get_dof_vertices2 in E. cbn [fold_res] in E. destruct (dof_vertex2 c v (Some d)) as [l|] eqn:E1; [|discriminate E]. cbn [bind app] in E. injection E as <-. exact (vertex_at2 e m s v d l c V E1).
Qed.
Print Assumptions C87_positions.
(** a dof is at one point only: the same in all its cells, before and after every refinement *)
Theorem C87_unique pts faces e m s v : vertex_history2 edit pts faces e m s v ->
  forall d x y, at_point e m s d x -> at_point e m s d y -> peq x y.
Proof.
  intros H d x y [p [k [x' [Dx [Px Qx]]]]] [q [j [y' [Dy [Py Qy]]]]]. destruct (vertex_dof2 edit pts faces e m s v id_edit H) as [HD _].
  assert (X : peq x' y').
  { destruct (torn e) eqn:T; [apply (C48_torn pts faces e m s p k x' q j y' d HD T Dx Dy Px Py)|apply (C48_same_point pts faces e m s p k x' q j y' d HD T Dx Dy Px Py)]. }
  eapply peq_t; [exact Qx|]. eapply peq_t; [exact X|]. apply peq_s. exact Qy.
Qed.
Print Assumptions C87_unique.
(** the first distribution gives every dof of the leaves of the submesh a vertex *)
Theorem C87_first pts faces m0 e m sf s v : mesh_history pts faces m0 m -> distribute_dofs2 e m sf (no_dofs, []) = Ok (s, v) ->
  forall p k d, sub_leaf (cells m) sf p -> dof_at s p k d -> has_vertex2 v d.
Proof.
  intros MH E p k d L Hk. assert (HD : dof_history2 edit pts faces e m no_dofs) by (eapply DH2_start; eauto). destruct (C48_distribute pts faces e m no_dofs sf HD) as [A B].
  destruct (C30_is_balanced pts faces m0 m None MH) as [b [Eb Ib]]. unfold distribute_dofs2 in E. cbn [fst snd] in E.
  destruct b; [|rewrite B in E; [discriminate E|intro Z; apply Ib in Z; discriminate Z]].
  destruct (A (proj1 Ib eq_refl)) as [s1 [E1 [_ [_ F]]]]. rewrite E1 in E. cbn [bind] in E.
  assert (V : vsound2 (located2 e m s1) []) by (split; [constructor|intros d' l []]).
  destruct (set_ok2 MH e s1 sf [] (fun p Hp => proj1 (F p Hp)) V) as [v1 [E2 [V1 [_ C]]]]. rewrite E2 in E. cbn [bind] in E. injection E as <- <-.
  destruct (known_vertex2 e m s1 v1 d V1 (C eq_refl p k d L Hk)) as [x [Ex _]]. exists x. exact Ex.
Qed.
Print Assumptions C87_first.

(** ** Dirichlet conditions *)
Lemma mesh_start pts faces m0 m m0' m' : mesh_history pts faces m0 m -> mesh_history pts faces m0' m' -> m0 = m0'.
Proof. intros [_ [_ [[d [D1 D2]] _]]] [_ [_ [[d' [D1' D2']] _]]]. rewrite D1 in D1'. injection D1' as <-. rewrite D2 in D2'. injection D2' as <-. reflexivity. Qed.
(** the node of a slot at a vertex is at the point of that vertex *)
Lemma slot_vertex pts faces m0 m e p v k z : mesh_history pts faces m0 m -> slot_on e m p (Vtx v) false k -> position2 e m p k z -> peq z (vx (hp m) v).
Proof.
  intros H [y [Ny [i [h [Si [-> E]]]]]] P. pose proof (history_minv _ _ _ _ H) as M. destruct P as [c [x [v0 [v1 [v2 [v3 [Ec [Ex [Ev ->]]]]]]]]].
  pose proof (eq_trans (eq_sym Ny) Ex) as Q0. injection Q0 as ->.
  apply (is_side_iff _ _ _ _ (m_s _ _ _ M)) in Si. destruct Si as [Hp [Li ->]].
  assert (Q : cquad m p = (v0, v1, v2, v3)) by (rewrite <- (coords_quad m p c (m_s _ _ _ M) Ec), Ev; reflexivity). rewrite <- Q.
  eapply peq_t; [apply (peq_qmap (cquad m p) (cquad m p) x (corner i)); [apply qeq_refl|exact E]|]. unfold cquad, qmap, peq, corner. destruct i as [|[|[|[|]]]]; try lia; cbn [nth fst snd]; split; ring.
Qed.
(** add_dirichlet, for all elements and meshes: exactly the dofs at the marked vertices (those of
    the boundary, if the conditions are on the boundary) get the value prescribed there, all other
    entries of the dictionary are kept *)
Theorem C87_conditions pts faces m0 m hl vl e s dv sf marker df on_bnd dir :
  let M := mkR m (nh (hp m0)) hl vl in
  mesh_history pts faces m0 m -> vertex_history2 edit pts faces e m s dv -> submesh_rooted (cells m) sf ->
  (forall p, sub_leaf (cells m) sf p -> filled (n_dofs D2 e) s p) -> (forall p k d, sub_leaf (cells m) sf p -> dof_at s p k d -> has_vertex2 dv d) ->
  df <> DSame2 -> proper_data2 df -> NoDup (map fst dir) ->
  exists dir', add_dirichlet2 e M s dv marker df on_bnd sf dir = Ok dir' /\ NoDup (map fst dir') /\
    (forall d v, conditioned2 M e s sf marker on_bnd d v -> exists y, Assemble.lookup d dir' = Some y /\ prescribed2 df (vx (hp m) v) y) /\
    (forall d, (forall v, ~ conditioned2 M e s sf marker on_bnd d v) -> Assemble.lookup d dir' = Assemble.lookup d dir) /\
    (forall d, In d (map fst dir') <-> (exists v, conditioned2 M e s sf marker on_bnd d v) \/ In d (map fst dir)).
Proof.
  intros M MH VH Rt Fi HV NS PD NK. unfold add_dirichlet2, assembler_dirichlet_dofs.
  destruct (C70_region pts faces m0 M e s EVertex marker false on_bnd sf MH eq_refl Rt Fi (fun _ X => ltac:(discriminate X))) as [ds [ED [ND HD]]]. rewrite ED. cbn [bind].
  assert (CD : forall d, In d ds <-> exists v, conditioned2 M e s sf marker on_bnd d v).
  { intros d. rewrite HD. split.
    - intros [x [p [k [Kx [F [L [So Dk]]]]]]]. destruct x as [v|h|q]; try discriminate Kx. exists v, p, k. split; [exact F|]. split; [exact L|]. split; [exact So|exact Dk].
    - intros [v [p [k [F [L [So Dk]]]]]]. exists (Vtx v), p, k. split; [reflexivity|]. split; [exact F|]. split; [exact L|]. split; [exact So|exact Dk]. }
  assert (LF : forall v p, found_in M sf on_bnd (Vtx v) p -> (forall g, marker = Some g -> labelled M (Vtx v) g) -> sub_leaf (cells m) sf p).
  { intros v p F L. destruct (C68_get pts faces m0 M sf marker EVertex on_bnd MH eq_refl Rt) as [out [_ [_ [I1 I2]]]]. apply (I2 (Vtx v) p). apply I1. split; [reflexivity|]. split; [exact F|exact L]. }
  assert (VS : exists vs, dir_values2 dv df (map Some ds) = Ok vs /\ Forall2 (fun d y => forall v, conditioned2 M e s sf marker on_bnd d v -> prescribed2 df (vx (hp m) v) y) ds vs).
  { destruct df as [c|g|]; [| |congruence].
    - exists (map (fun _ => c) ds). cbn. rewrite map_map. split; [reflexivity|]. clear. induction ds; constructor; auto. intros z _. cbn. reflexivity.
    - destruct (vertices_total2 dv ds) as [xs Ex].
      { intros d I. apply CD in I. destruct I as [v [p [k [F [L [_ Dk]]]]]]. exact (HV p k d (LF v p F L) Dk). }
      cbn [dir_values2]. rewrite Ex. cbn [bind]. exists (map g xs). split; [reflexivity|].
      pose proof (proj1 (C87_positions _ _ _ _ _ _ VH) ds xs Ex) as FP. clear - FP PD VH MH LF. induction FP as [|d x l l' Px FP IH]; constructor; [|exact IH].
      intros v [p [k [F [L [So Dk]]]]]. cbn. apply PD.
      assert (exists z, position2 e m p k z) as [z Pz].
      { destruct So as [y [Ny _]]. destruct (LF v p F L) as [n [En _]]. eexists. exact (node_position MH e p k y (ex_intro _ n En) Ny). }
      eapply peq_t; [|exact (slot_vertex pts faces m0 m e p v k z MH So Pz)].
      apply (C87_unique _ _ _ _ _ _ VH d x z Px). exists p, k, z. split; [exact Dk|]. split; [exact Pz|apply peq_r]. }
  destruct VS as [vs [EV FV]]. rewrite EV. cbn [bind]. eexists. split; [reflexivity|].
  assert (LV : length ds = length vs) by (clear - FV; induction FV; cbn; congruence).
  destruct (Prop_Problem.store_all ds vs dir ND (eq_sym LV) NK) as [S1 [S2 [S3 S4]]]. split; [exact S1|]. split; [|split].
  - intros d v C. assert (I : In d ds) by (apply CD; exists v; exact C). apply In_nth_error in I. destruct I as [i Ei].
    assert (exists y, nth_error vs i = Some y /\ forall v, conditioned2 M e s sf marker on_bnd d v -> prescribed2 df (vx (hp m) v) y) as [y [Ey Hy]].
    { clear - FV Ei. revert i Ei. induction FV as [|d' y' l l' H F IH]; intros [|i] E; try discriminate E; cbn in E; [injection E as ->; exists y'; auto|apply IH; exact E]. }
    exists y. split; [exact (S3 i d y Ei Ey)|apply Hy; exact C].
  - intros d N. apply S2. intros I. apply CD in I. destruct I as [v C]. exact (N v C).
  - intros d. rewrite S4, CD. reflexivity.
Qed.
Print Assumptions C87_conditions.
(** a nodal function with the dofs of the trial functions is not accepted *)
Theorem C87_same_refuted e M s dv marker on_bnd sf dir ds : assembler_dirichlet_dofs e M s marker on_bnd sf = Ok ds ->
  add_dirichlet2 e M s dv marker DSame2 on_bnd sf dir = Err AttributeError.
Proof. intros E. unfold add_dirichlet2. rewrite E. reflexivity. Qed.
Print Assumptions C87_same_refuted.

(** ** Examples *)
Fixpoint vrun (e : elem) (cs : list (option cmd)) (x : mesh2 * (dofs * dverts2)) : res (mesh2 * (dofs * dverts2)) :=
  match cs with
  | [] => Ok x
  | Some c :: cs => bind (run_cmd (fst x) c) (fun m => vrun e cs (m, snd x))
  | None :: cs => bind (distribute_dofs2 e (fst x) None (snd x)) (fun y => vrun e cs (fst x, y))
  end.
Lemma run_cmd_edit c m m' : run_cmd m c = Ok m' -> edit m m'.
Proof. destruct c as [fl p|g p]; cbn; intro E; [eapply ed_split; exact E|injection E as <-; apply ed_mark]. Qed.
Lemma vrun_history pts faces e cs : forall m s v m' s' v', vertex_history2 edit pts faces e m s v -> vrun e cs (m, (s, v)) = Ok (m', (s', v')) -> vertex_history2 edit pts faces e m' s' v'.
Proof.
  induction cs as [|[c|] cs IH]; intros m s v m' s' v' H E; cbn [vrun fst snd] in E.
  - assert (Q : (m, (s, v)) = (m', (s', v'))) by congruence. congruence.
  - destruct (run_cmd m c) as [m1|] eqn:E1; [|discriminate E]. cbn [bind] in E. apply (IH m1 s v); [|exact E]. eapply VH2_change; [exact H|]. apply (run_cmd_edit c). exact E1.
  - destruct (distribute_dofs2 e m None (s, v)) as [[s1 v1]|] eqn:E1; [|discriminate E]. cbn [bind] in E. apply (IH m s1 v1); [|exact E]. eapply VH2_distribute; [exact H| |exact E1]. apply rooted_b. reflexivity.
Qed.
Definition vgrid (nx ny : nat) (xb yb : Q) (e : elem) (cs : list (option cmd)) : res (mesh2 * (mesh2 * (dofs * dverts2))) :=
  bind (determine2 (length (grid_points 0 xb 0 yb nx ny)) (grid_faces nx ny)) (fun d =>
  bind (mesh_of_dcel false (grid_points 0 xb 0 yb nx ny) d) (fun m0 =>
  bind (vrun e cs (m0, (no_dofs, []))) (fun x => Ok (m0, x)))).
Lemma vgrid_history nx ny (xb yb : Q) e cs m0 m s v : polygon_mesh (length (grid_points 0 xb 0 yb nx ny)) (grid_faces nx ny) -> quad_faces (grid_faces nx ny) ->
  vgrid nx ny xb yb e cs = Ok (m0, (m, (s, v))) ->
  (exists m1, mesh_history (grid_points 0 xb 0 yb nx ny) (grid_faces nx ny) m1 m /\ m1 = m0) /\ vertex_history2 edit (grid_points 0 xb 0 yb nx ny) (grid_faces nx ny) e m s v.
Proof.
  intros PM QF E. unfold vgrid in E. destruct (determine2 _ _) as [d|] eqn:ED; [|discriminate E]. cbn [bind] in E. destruct (mesh_of_dcel _ _ _) as [m1|] eqn:EM; [|discriminate E]. cbn [bind] in E.
  destruct (vrun e cs (m1, (no_dofs, []))) as [[m2 [s2 v2]]|] eqn:EV; [|discriminate E]. cbn [bind] in E.
  assert (Q : (m1, (m2, (s2, v2))) = (m0, (m, (s, v)))) by congruence. injection Q as -> -> -> ->.
  assert (MH : mesh_history (grid_points 0 xb 0 yb nx ny) (grid_faces nx ny) m0 m0) by (split; [exact PM|split; [exact QF|split; [exists d; auto|constructor]]]).
  assert (VH : vertex_history2 edit (grid_points 0 xb 0 yb nx ny) (grid_faces nx ny) e m s v) by (eapply vrun_history; [eapply VH2_start; exact MH|exact EV]).
  split; [|exact VH]. destruct (vertex_dof2 edit _ _ _ _ _ _ id_edit VH) as [HD _]. destruct (history_good edit _ _ _ _ _ id_edit HD) as [[m1 M1] _].
  exists m1. split; [exact M1|]. apply (mesh_start _ _ _ _ _ _ M1 MH).
Qed.
(** DQ0 on one cell, the whole mesh: distribute, refine, distribute, refine the first child, ...:
    the dofs of the last cells have no vertex (more vertices are recorded already than the leaves
    have dofs); get_dof_vertices raises KeyError *)
Definition stale_cs : list (option cmd) :=
  [None; Some (CSplit None [0]); None; Some (CSplit None [0; 0]); None; Some (CSplit None [0; 1]); None; Some (CSplit None [0; 2]); None].
Definition stale_check (r : res (mesh2 * (mesh2 * (dofs * dverts2)))) : bool :=
  match r with
  | Ok (_, (m, (s, v))) =>
    match gd s [0; 2; 0], fget (cells m) [0; 2; 0], get_dof_vertices2 None v [Some 13] with
    | Some [Some d], Some n, Err KeyError => (d =? 13) && forallb (fun o => match o with None => true | Some _ => false end) (n_slots n)
    | _, _, _ => false end
  | Err _ => false end.
Lemma stale_run : stale_check (vgrid 1 1 1 1 DQ0 stale_cs) = true.
Proof. vm_cast_no_check (eq_refl true). Qed.
Lemma grid_ok nx ny (xb yb : Q) : polygon_mesh (length (grid_points 0 xb 0 yb nx ny)) (grid_faces nx ny).
Proof. replace (length (grid_points 0 xb 0 yb nx ny)) with ((nx + 1) * (ny + 1)) by (destruct (Prop_Grid.C25_grid_size nx ny) as [d [_ [Ep [_ [_ [_ [_ EL]]]]]]]; rewrite EL, Ep; reflexivity). apply GridFacts.grid_polygon_mesh. Qed.
Theorem C87_stale_refuted : exists m s v, vertex_history2 edit (grid_points 0 1 0 1 1 1) (grid_faces 1 1) DQ0 m s v /\
  sub_leaf (cells m) None [0; 2; 0] /\ dof_at s [0; 2; 0] 0 13 /\ get_dof_vertices2 None v [Some 13] = Err KeyError.
Proof.
  pose proof stale_run as E. destruct (vgrid 1 1 1 1 DQ0 stale_cs) as [[m0 [m [s v]]]|] eqn:EV; [|discriminate E]. unfold stale_check in E.
  destruct (vgrid_history 1 1 1 1 DQ0 stale_cs m0 m s v (grid_ok 1 1 1 1) (Prop_QuadMesh.grid_quads 1 1) EV) as [_ VH]. exists m, s, v. split; [exact VH|].
  destruct (gd s [0; 2; 0]) as [[|[d|] [|]]|] eqn:G; try discriminate E. destruct (fget (cells m) [0; 2; 0]) as [n|] eqn:F; [|discriminate E].
  destruct (get_dof_vertices2 None v [Some 13]) as [xs|x] eqn:GV; [discriminate E|]. destruct x; try discriminate E. apply andb_true_iff in E. destruct E as [E1 E2]. apply Nat.eqb_eq in E1. subst d.
  split; [|split; [exists [Some 13]; auto|reflexivity]]. exists n. split; [exact F|]. split; [exact Logic.I|]. intros i k Ek. rewrite forallb_forall in E2. apply nth_error_In in Ek. specialize (E2 _ Ek). discriminate E2.
Qed.
Print Assumptions C87_stale_refuted.

(** the grid of 2 x 1 unit squares, the right one refined, Q2: u = x on the boundary.  The 11
    vertices of the mesh without the centre of the refined square and without the hanging one *)
Definition case_cs : list (option cmd) := [Some (CSplit None [1]); None].
Definition case_check (r : res (mesh2 * (mesh2 * (dofs * dverts2)))) : bool :=
  match r with
  | Ok (m0, (m, (s, v))) =>
    match add_dirichlet2 Q2 (mkR m (nh (hp m0)) (fun _ _ => false) (fun _ _ => false)) s v None (DMap2 fst) true None [] with
    | Ok dir => (length dir =? 9) && forallb (fun dy => existsb (fun c => Qeq_bool (snd dy) c) [0; 1; 3 # 2; 2]%Q) dir
    | Err _ => false end
  | Err _ => false end.
Lemma case_run : case_check (vgrid 2 1 2 1 Q2 case_cs) = true.
Proof. vm_cast_no_check (eq_refl true). Qed.
Lemma vgrid_filled nx ny (xb yb : Q) e c m0 m s v : vgrid nx ny xb yb e [c; None] = Ok (m0, (m, (s, v))) -> c <> None ->
  (forall p, sub_leaf (cells m) None p -> filled (n_dofs D2 e) s p) /\ forall p k d, sub_leaf (cells m) None p -> dof_at s p k d -> has_vertex2 v d.
Proof.
  intros E NC. destruct c as [c|]; [|congruence]. pose proof (vgrid_history nx ny xb yb e _ m0 m s v (grid_ok nx ny xb yb) (Prop_QuadMesh.grid_quads nx ny) E) as [[m1 [MH _]] _].
  unfold vgrid in E. destruct (determine2 _ _) as [d|]; [|discriminate E]. cbn [bind] in E. destruct (mesh_of_dcel _ _ _) as [m2|] eqn:EM; [|discriminate E]. cbn [bind vrun fst snd] in E.
  destruct (run_cmd m2 c) as [m3|] eqn:ER; [|discriminate E]. cbn [bind vrun fst snd] in E. destruct (distribute_dofs2 e m3 None (no_dofs, [])) as [[s3 v3]|] eqn:E3; [|discriminate E]. cbn [bind] in E.
  assert (Q : (m2, (m3, (s3, v3))) = (m0, (m, (s, v)))) by congruence. injection Q as -> -> -> ->. split.
  - assert (HD : dof_history2 edit (grid_points 0 xb 0 yb nx ny) (grid_faces nx ny) e m no_dofs) by (eapply DH2_start; exact MH).
    unfold distribute_dofs2 in E3. cbn [fst snd] in E3. destruct (Dof2.distribute2 e m None no_dofs) as [s4|] eqn:E4; [|discriminate E3]. cbn [bind] in E3.
    destruct (set_dof_vertices2 e m None s4 []) as [v4|]; [|discriminate E3]. cbn [bind] in E3. assert (Q : (s4, v4) = (s, v)) by congruence. injection Q as -> _. exact (distributed_filled _ _ _ _ _ _ _ HD E4).
  - exact (C87_first _ _ _ _ _ _ _ _ MH E3).
Qed.
Example C87_case : exists m0 m s v dir, let M := mkR m (nh (hp m0)) (fun _ _ => false) (fun _ _ => false) in
  mesh_history (grid_points 0 2 0 1 2 1) (grid_faces 2 1) m0 m /\ vertex_history2 edit (grid_points 0 2 0 1 2 1) (grid_faces 2 1) Q2 m s v /\
  (forall p, sub_leaf (cells m) None p -> filled (n_dofs D2 Q2) s p) /\ (forall p k d, sub_leaf (cells m) None p -> dof_at s p k d -> has_vertex2 v d) /\
  add_dirichlet2 Q2 M s v None (DMap2 fst) true None [] = Ok dir /\ length dir = 9 /\ forall d y, In (d, y) dir -> exists c, In c [0; 1; 3 # 2; 2]%Q /\ (y == c)%Q.
Proof.
  pose proof case_run as E. destruct (vgrid 2 1 2 1 Q2 case_cs) as [[m0 [m [s v]]]|] eqn:EV; [|discriminate E]. unfold case_check in E.
  destruct (vgrid_history 2 1 2 1 Q2 case_cs m0 m s v (grid_ok 2 1 2 1) (Prop_QuadMesh.grid_quads 2 1) EV) as [[m1 [MH ->]] VH].
  destruct (add_dirichlet2 Q2 _ s v None (DMap2 fst) true None []) as [dir|] eqn:EA; [|discriminate E]. apply andb_true_iff in E. destruct E as [E1 E2]. apply Nat.eqb_eq in E1. rewrite forallb_forall in E2.
  exists m0, m, s, v, dir. cbv zeta. split; [exact MH|]. split; [exact VH|]. destruct (vgrid_filled 2 1 2 1 Q2 (Some (CSplit None [1])) m0 m s v EV ltac:(discriminate)) as [F1 F2].
  split; [exact F1|]. split; [exact F2|]. split; [exact EA|]. split; [exact E1|]. intros d y I. specialize (E2 _ I). apply existsb_exists in E2. destruct E2 as [c [Ic Ec]]. exists c. split; [exact Ic|apply Qeq_bool_iff; exact Ec].
Qed.

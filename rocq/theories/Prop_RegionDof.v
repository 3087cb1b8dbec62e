(** * C70, C71: the degrees of freedom of regions and of Dirichlet conditions in 2D *)
From Coq Require Import List Arith Bool Lia QArith Lqa.
From Verif Require Import Tree Forest SpecForest TreeFacts ForestFacts LabelFacts Geom SpecGeom Dcel SpecDcel DcelFacts GridFacts Segments Quad SpecQuad QuadFacts QuadInv QuadNb QuadCoords QuadHist VertNb
  Prop_Dcel Prop_Grid Prop_QuadMesh Prop_Balance Fem SpecFem Prop_Inherit Dof SpecDof DofFacts Dof2 SpecDof2 SurfFacts Node2Facts Surf2 Dof2Facts Dof2Hist Grid2 NodalFacts Solver
  Region SpecRegion RegionFacts RegionMain RegionMark Prop_Region Prop_RegionMark BoxFacts RegionDof SpecRegionDof RegionDofFacts Prop_Dof2 BalSets GrowFacts.
Import ListNotations.
Open Scope nat_scope.

(** ** C70 *)
(** get_cell_dofs(cell, entity, interior) for an entity of a cell whose dofs were
    distributed: the dofs of the slots whose nodes lie on the entity.  (DQ0 on
    half-edges: see C70_dq0_refuted.) *)
Theorem C70_entity pts faces m0 m e s p x interior : mesh_history pts faces m0 m -> filled (n_dofs D2 e) s p -> is_cell m p ->
  part_of_cell m p x -> (e = DQ0 -> kind x = EHalfEdge -> interior = true) ->
  exists ds, entity_dofs2 e m s p x interior = Ok (Some (map Some ds)) /\
    forall d, In d ds <-> exists k, slot_on e m p x interior k /\ dof_at s p k d.
Proof.
  intros H F Hp Px He. apply is_cell_here in Hp. destruct (entity_filled pts faces m e s p x interior (history_minv _ _ _ _ H) Hp F Px He) as [ds [E [_ I]]]. eauto.
Qed.
Print Assumptions C70_entity.

Lemma nodup_some l : exists l', nodup odec (map Some l) = map Some l' /\ NoDup l' /\ forall d, In d l' <-> In d l.
Proof.
  induction l as [|a l [l' [E [N I]]]]; [exists []; split; auto; split; [constructor|tauto]|]. cbn [map nodup].
  destruct (in_dec odec (Some a) (map Some l)) as [J|J]; rewrite E.
  - exists l'. split; auto. split; auto. intros d. rewrite I. split; [right; auto|intros [<-|K]; auto]. apply in_map_iff in J. destruct J as [b [[= <-] J]]. auto.
  - exists (a :: l'). split; auto. split.
    + constructor; auto. rewrite I. intros K. apply J, in_map. auto.
    + intros d. simpl. rewrite I. tauto.
Qed.
Lemma part_edge_cell pts faces m0 m p k h x : mesh_history pts faces m0 m -> is_side m p k h -> part_of_edge m h x -> part_of_cell m p x.
Proof.
  intros H Sd Px. pose proof (m_s _ _ _ (history_minv _ _ _ _ H)) as Iv. destruct x as [v|g|q]; simpl in *.
  - destruct Px as [-> | ->]; [exists k, h; auto|]. pose proof Sd as S2. apply (is_side_iff _ _ _ _ Iv) in S2. destruct S2 as [Hp [Lk ->]]. destruct (side_good Iv p k Hp Lk) as [_ [_ [E _]]].
    exists ((k + 1) mod 4), (side m p ((k + 1) mod 4)). split; [apply (is_side_iff _ _ _ _ Iv); split; auto; split; auto; apply m4_lt|exact E].
  - subst g. eauto.
  - destruct Px as [j S2]. apply (is_side_iff _ _ _ _ Iv) in Sd, S2. destruct Sd as [Hp [Lk ->]]. destruct S2 as [Hq [Lj E]]. symmetry. apply (QuadInv.side_inj Iv p q k j Hp Hq Lk Lj E).
Qed.
Lemma found_part pts faces m0 M sf onb x p : mesh_history pts faces m0 (rm M) -> found_in M sf onb x p -> part_of_cell (rm M) p x.
Proof.
  intros H. destruct onb; simpl; [|tauto]. intros [segs [h [_ [_ [[k Sd] Px]]]]]. eapply part_edge_cell; eauto.
Qed.
(** get_region_dofs: exactly the dofs whose nodes lie on an entity of the region,
    each once. *)
Theorem C70_region pts faces m0 M e s ty fl interior on_boundary sf :
  mesh_history pts faces m0 (rm M) -> n_root M = nh (hp m0) -> submesh_rooted (cells (rm M)) sf ->
  (forall p, sub_leaf (cells (rm M)) sf p -> filled (n_dofs D2 e) s p) -> (e = DQ0 -> ty = EHalfEdge -> interior = true) ->
  exists ds, get_region_dofs2 e M s ty fl interior on_boundary sf = Ok (map Some ds) /\ NoDup ds /\
    forall d, In d ds <-> exists x p k, kind x = ty /\ found_in M sf on_boundary x p /\ (forall g, fl = Some g -> labelled M x g) /\
      slot_on e (rm M) p x interior k /\ dof_at s p k d.
Proof.
  intros H Hn Rt Fi He. destruct (C68_get pts faces m0 M sf fl ty on_boundary H Hn Rt) as [xs [E1 [_ [I1 I2]]]].
  pose proof (history_minv _ _ _ _ H) as Mi. unfold get_region_dofs2. rewrite E1. cbn [bind].
  set (f := fun xp : ent * path => bind (entity_dofs2 e (rm M) s (snd xp) (fst xp) interior) (fun o => match o with Some ds => Ok ds | None => Err TypeError end)).
  assert (G : forall l, incl l xs -> exists ds, map_res f l = Ok (map (map Some) ds) /\ forall d, In d (concat ds) <-> exists x p k, In (x, p) l /\ slot_on e (rm M) p x interior k /\ dof_at s p k d).
  { induction l as [|[x p] l IH]; intros Il.
    - exists []. split; [reflexivity|]. intros d. split; [intros []|intros [x [p [k [[] _]]]]].
    - destruct IH as [ds [E Id]]; [intros y Iy; apply Il; right; auto|]. pose proof (Il _ (or_introl eq_refl)) as Ix. pose proof (I2 _ _ Ix) as Lp. apply I1 in Ix. destruct Ix as [Kx [Fx _]].
      assert (Hp : here (rm M) p) by (destruct Lp as [n [En _]]; apply here_fget; eauto).
      destruct (entity_filled pts faces (rm M) e s p x interior Mi Hp (Fi p Lp) (found_part _ _ _ _ _ _ _ _ H Fx) ltac:(rewrite Kx; auto)) as [d0 [E0 [_ I0]]].
      exists (d0 :: ds). split; [cbn [map_res]; unfold f at 1; cbn [fst snd]; rewrite E0; cbn [bind]; rewrite E; reflexivity|].
      intros d. cbn [concat]. rewrite in_app_iff, I0, Id. split.
      + intros [[k [A B]]|[x' [p' [k [A B]]]]]; [exists x, p, k; split; [left; auto|auto]|exists x', p', k; split; [right; auto|auto]].
      + intros [x' [p' [k [[[= <- <-]|A] B]]]]; [left; eauto|right; eauto 6]. }
  destruct (G xs (incl_refl _)) as [ds [E Id]]. rewrite E. cbn [bind]. rewrite <- concat_map.
  destruct (nodup_some (concat ds)) as [l' [El [Nl Il]]]. exists l'. rewrite El. split; auto. split; auto. intros d. rewrite Il, Id. split.
  - intros [x [p [k [A [B C]]]]]. apply I1 in A. destruct A as [Kx [Fx Lx]]. exists x, p, k. auto.
  - intros [x [p [k [Kx [Fx [Lx [B C]]]]]]]. exists x, p, k. split; auto. apply I1. auto.
Qed.
Print Assumptions C70_region.

(** Distributed dofs: nothing else is needed (a submesh, or the whole mesh, whose
    dofs were distributed last). *)
Lemma distributed_filled pts faces e m s sf s' : dof_history2 edit pts faces e m s -> distribute2 e m sf s = Ok s' ->
  forall p, sub_leaf (cells m) sf p -> filled (n_dofs D2 e) s' p.
Proof.
  intros H E. destruct (history_good edit pts faces e m s (fun _ _ x => x) H) as [[m0 MH] _].
  destruct (C48_distribute pts faces e m s sf H) as [A B]. intros p [n [En [Ln _]]].
  destruct (C30_is_balanced pts faces m0 m None MH) as [b [Eb Ib]]. destruct b.
  - destruct (A (proj1 Ib eq_refl)) as [s2 [E2 [_ [_ F]]]]. assert (s2 = s') by congruence. subst s2. apply F. exists n. auto.
  - rewrite B in E; [discriminate|]. intro Z. apply Ib in Z. discriminate.
Qed.
Corollary C70_distributed pts faces e m s sf s' hl vl ty fl interior on_boundary :
  dof_history2 edit pts faces e m s -> submesh_rooted (cells m) sf -> distribute2 e m sf s = Ok s' -> (e = DQ0 -> ty = EHalfEdge -> interior = true) ->
  exists m0 ds, mesh_history pts faces m0 m /\
    let M := mkR m (nh (hp m0)) hl vl in
    get_region_dofs2 e M s' ty fl interior on_boundary sf = Ok (map Some ds) /\ NoDup ds /\
    forall d, In d ds <-> exists x p k, kind x = ty /\ found_in M sf on_boundary x p /\ (forall g, fl = Some g -> labelled M x g) /\
      slot_on e m p x interior k /\ dof_at s' p k d.
Proof.
  intros H Rt E He. destruct (history_good edit pts faces e m s (fun _ _ x => x) H) as [[m0 MH] _].
  pose proof (distributed_filled _ _ _ _ _ _ _ H E) as Fi.
  destruct (C70_region pts faces m0 (mkR m (nh (hp m0)) hl vl) e s' ty fl interior on_boundary sf MH eq_refl Rt Fi He) as [ds [E1 [N I]]]. exists m0, ds. auto.
Qed.
Print Assumptions C70_distributed.

(** Mark a region with a new label, ask for its dofs: the dofs whose nodes lie on
    the entities in the region. *)
Theorem C70_marked pts faces m0 M sf g f ty strict on_boundary e s interior :
  mesh_history pts faces m0 (rm M) -> n_root M = nh (hp m0) -> submesh_rooted (cells (rm M)) sf -> ty <> EOther ->
  (forall p, sub_leaf (cells (rm M)) sf p -> filled (n_dofs D2 e) s p) -> (e = DQ0 -> ty = EHalfEdge -> interior = true) ->
  (forall x, kind x = ty -> ~ labelled M x g) ->
  exists M' ds, mark_region g f ty strict on_boundary sf M = Ok M' /\
    get_region_dofs2 e M' s ty (Some g) interior on_boundary sf = Ok (map Some ds) /\ NoDup ds /\
    forall d, In d ds <-> exists x p k, kind x = ty /\ found_in M sf on_boundary x p /\ in_region f strict (rm M) x /\
      slot_on e (rm M) p x interior k /\ dof_at s p k d.
Proof.
  intros H Hn Rt Ne Fi He Nl. destruct (C68_mark pts faces m0 M sf g f ty strict on_boundary H Hn Rt Ne) as [M' [E [H' [Hn' [Ehp [_ L]]]]]].
  destruct (mark_result pts faces m0 M sf H Hn Rt g f ty strict on_boundary (fun _ => Ne)) as [M2 [E2 B]]. assert (M2 = M') by congruence. subst M2.
  assert (E4 : forall s p, sf = Some s -> marked_at (cells (rm M')) p s = marked_at (cells (rm M)) p s).
  { intros s' p Es. apply eq_true_iff_eq. rewrite (L (Cel p) s' : marked_at (cells (rm M')) p s' = true <-> _). split; [|auto].
    intros [A|[-> [_ [[q F] _]]]]; auto. assert (Lp : sub_leaf (cells (rm M)) sf p).
    { pose proof (found_edge pts faces m0 M sf H Hn Rt _ _ _ F) as Lq. destruct on_boundary; simpl in F.
      - destruct F as [segs [h [_ [_ [[k S1] [j S2]]]]]]. assert (p = q) by (pose proof (side_cell _ _ _ _ H _ _ _ S1); pose proof (side_cell _ _ _ _ H _ _ _ S2); congruence). subst q. auto.
      - destruct F as [_ ->]. auto. }
    destruct Lp as [n [En [Fn _]]]. rewrite Es in Fn. unfold marked_at. rewrite En. exact Fn. }
  destruct B as [a b c _ _ _]. pose proof (ext_rooted M M' sf b E4 Rt) as Rt'.
  destruct (C70_region pts faces m0 M' e s ty (Some g) interior on_boundary sf H' ltac:(congruence) Rt') as [ds [G1 [G2 G3]]]; auto.
  { intros p Lp. apply Fi. apply (ext_leaf M M' sf); auto. }
  exists M', ds. split; auto. split; auto. split; auto. intros d. rewrite G3.
  assert (SL : forall p x k, slot_on e (rm M') p x interior k <-> slot_on e (rm M) p x interior k).
  { intros p x k. assert (SD : forall q j h, is_side (rm M') q j h <-> is_side (rm M) q j h) by (intros; apply ext_side; auto).
    unfold slot_on. rewrite Ehp. split; (intros [y [Ny Y]]; exists y; split; auto; destruct x as [v|h|q]; auto;
      [destruct Y as [i [h [Sd Y]]]; exists i, h; split; [apply SD; auto|auto]|destruct Y as [i [t [Sd Y]]]; exists i, t; split; [apply SD; auto|auto]]). }
  split.
  - intros [x [p [k [Kx [Fx [Lx [Sx Dx]]]]]]]. exists x, p, k. split; auto. specialize (Lx g eq_refl). apply L in Lx. split; [apply (ext_found M M' sf); auto|].
    split; [|split; [apply SL; auto|auto]]. destruct Lx as [A|[_ [_ [_ A]]]]; auto. destruct (Nl x Kx A).
  - intros [x [p [k [Kx [Fx [Rx [Sx Dx]]]]]]]. exists x, p, k. split; auto. split; [apply (ext_found M M' sf); auto|].
    split; [|split; [apply SL; auto|auto]]. intros g' [= <-]. apply L. right. split; auto. split; auto. split; eauto.
Qed.
Print Assumptions C70_marked.

(** The element DQ0 has its only node in the middle of the cell, but get_cell_dofs
    with a half-edge returns its dof, even twice. *)
Theorem C70_dq0_refuted : forall pts faces m0 m s p k h d, mesh_history pts faces m0 m -> gd s p = Some [Some d] -> is_side m p k h ->
  entity_dofs2 DQ0 m s p (Hed h) false = Ok (Some [Some d; Some d]) /\
  ~ exists j, slot_on DQ0 m p (Hed h) false j.
Proof.
  intros pts faces m0 m s p k h d H G Sd. pose proof (history_minv _ _ _ _ H) as M. pose proof Sd as S2. apply (is_side_iff _ _ _ _ (m_s _ _ _ M)) in S2. destruct S2 as [Hp [Lk ->]]. split.
  - rewrite (entity_rd pts faces m M DQ0 p Hp s [Some d] (Hed (side m p k)) false G eq_refl (ex_intro _ k Sd)). unfold slots. rewrite (sides_idx _ _ _ M _ _ Hp Lk).
    destruct k as [|[|[|[|]]]]; try lia; reflexivity.
  - intros [j [y [N [i [t [Si [E T]]]]]]]. apply (is_side_iff _ _ _ _ (m_s _ _ _ M)) in Si. destruct Si as [_ [Li _]]. destruct (nodes2_at _ _ _ N) as [Lj ->].
    assert (j = 0) by (cbv in Lj; lia). subst j. destruct (on_side_param i _ t Li E) as [O _]. destruct i as [|[|[|[|]]]]; try lia; vm_compute in O; discriminate.
Qed.
Print Assumptions C70_dq0_refuted.

(** ** C71: Dirichlet conditions on the boundary of a rectangle *)
Section rect.
Context (nx ny : nat) (xa xb ya yb : Q) (m0 : mesh2) (M : rmesh) (e : elem) (s : dofs) (sf : option flag).
Hypothesis Px : 0 < nx.
Hypothesis Py : 0 < ny.
Hypothesis Hx : (xa < xb)%Q.
Hypothesis Hy : (ya < yb)%Q.
Hypothesis H : mesh_history (grid_points xa xb ya yb nx ny) (grid_faces nx ny) m0 (rm M).
Hypothesis Hn : n_root M = nh (hp m0).
Hypothesis Rt : submesh_rooted (cells (rm M)) sf.
Local Notation m := (rm M).
Local Notation faces := (grid_faces nx ny).
(** a boundary half-edge of the submesh and its cell *)
Lemma bnd_found x p : found_in M sf true x p <-> exists r q j h, p = r :: q /\ outer_side faces r j /\ Forall (touches j) q /\ sub_leaf (cells m) sf p /\ is_side m p j h /\ part_of_edge m h x.
Proof.
  pose proof (m_s _ _ _ (history_minv _ _ _ _ H)) as Iv.
  destruct (C67_rectangle nx ny xa xb ya yb m0 m sf (hlab M) (vlab M) Px Py H Rt) as [sg [E [_ [_ [_ [_ [I _]]]]]]].
  assert (EM : M = mkR m (nh (hp m0)) (hlab M) (vlab M)) by (rewrite <- Hn; destruct M; reflexivity). rewrite <- EM in E. simpl. split.
  - intros [segs [h [Es [Ih [[k Sd] Pt]]]]]. rewrite E in Es. injection Es as <-. cbn [concat] in Ih. rewrite app_nil_r in Ih. apply I in Ih.
    destruct Ih as [r [j [O [q [F [L S2]]]]]]. pose proof Sd as S1. pose proof S2 as S3. apply (is_side_iff _ _ _ _ Iv) in S1, S3. destruct S1 as [H1 [L1 E1]]. destruct S3 as [H3 [L3 E3]].
    destruct (QuadInv.side_inj Iv p (r :: q) k j H1 H3 L1 L3 ltac:(congruence)) as [-> ->]. exists r, q, j, h. auto 10.
  - intros [r [q [j [h [-> [O [F [L [Sd Pt]]]]]]]]]. exists [sg], h. split; auto. split; [cbn [concat]; rewrite app_nil_r; apply I; exists r, j; split; auto; exists q; auto|]. split; eauto.
Qed.
Lemma position_ex p k : here m p -> k < nd2 e -> exists z, position2 e m p k z /\ peq z (plane m (place p (node2 e k))).
Proof.
  intros Hp Lk. pose proof Hp as Hf. apply here_fget in Hf. destruct Hf as [c Ec]. pose proof (history_minv _ _ _ _ H) as Mi.
  assert (EC : exists v0 v1 v2 v3, coords m c = [v0; v1; v2; v3]). { unfold coords, cell_vertices. rewrite (data_sides (m_s _ _ _ Mi) p c Ec). cbn. eauto 6. }
  destruct EC as [v0 [v1 [v2 [v3 EC]]]]. assert (Z : position2 e m p k (qmap (v0, v1, v2, v3) (fst (node2 e k)) (snd (node2 e k)))).
  { exists c, (node2 e k), v0, v1, v2, v3. split; auto. split; [apply Node2Facts.nodes2_nth; auto|auto]. }
  eexists. split; [exact Z|]. apply (position2_plane _ _ m Mi e p k _ Z).
Qed.
Lemma uside_side j x : j < 4 -> unit_pt x -> (uside j x <-> exists t, peq x (side_pt j t) /\ (0 <= t <= 1)%Q).
Proof.
  intros Lj U. rewrite <- (side_iff j x false Lj U). rewrite andb_true_r. unfold uside, on_line, on_side. destruct j as [|[|[|[|]]]]; try lia; rewrite Qeq_bool_iff; tauto.
Qed.
Lemma here_leaf p : sub_leaf (cells m) sf p -> here m p.
Proof. intros [n [En _]]. apply here_fget. eauto. Qed.
Lemma boundary_iff d : boundary_dof xa xb ya yb e m s sf d <-> exists x p k, kind x = EHalfEdge /\ found_in M sf true x p /\ slot_on e m p x false k /\ dof_at s p k d.
Proof.
  pose proof (history_minv _ _ _ _ H) as Mi. pose proof (m_s _ _ _ Mi) as Iv. split.
  - intros [p [k [z [L [D [Z [j [Lj O]]]]]]]]. destruct (position2_plane _ _ m Mi e p k z Z) as [Lk [Hp Ez]]. apply (line_peq _ _ _ _ _ _ _ Ez) in O.
    apply (cell_line xa xb ya yb nx ny m0 m H Hx Hy j p (node2 e k) Lj Hp (nodes2_unit e k)) in O. destruct O as [r [q [-> [O [F U]]]]].
    assert (Sd : is_side m (r :: q) j (side m (r :: q) j)) by (apply (is_side_iff _ _ _ _ Iv); auto).
    exists (Hed (side m (r :: q) j)), (r :: q), k. split; auto. split; [apply bnd_found; exists r, q, j, (side m (r :: q) j); split; auto; split; auto; split; auto; split; auto; split; auto; reflexivity|].
    split; auto. exists (node2 e k). split; [apply Node2Facts.nodes2_nth; auto|]. apply (uside_side j _ Lj (nodes2_unit e k)) in U. destruct U as [t [E T]]. exists j, t. auto.
  - intros [x [p [k [Kx [F [[y [Ny Y]] D]]]]]]. apply bnd_found in F. destruct F as [r [q [j [h [-> [O [F [L [Sd Pt]]]]]]]]]. destruct x as [v|g|c]; try discriminate Kx. simpl in Pt. subst g.
    destruct Y as [i [t [Si [E T]]]]. pose proof (here_leaf _ L) as Hp. apply (is_side_iff _ _ _ _ Iv) in Sd, Si. destruct Sd as [_ [Lj Ej]]. destruct Si as [_ [Li Ei]].
    destruct (QuadInv.side_inj Iv _ _ j i Hp Hp Lj Li ltac:(congruence)) as [_ <-]. destruct (nodes2_at _ _ _ Ny) as [Lk ->].
    destruct (position_ex (r :: q) k Hp Lk) as [z [Z Ez]]. exists (r :: q), k, z. split; auto. split; auto. split; auto. exists j. split; auto.
    apply (line_peq _ _ _ _ _ _ _ (peq_s _ _ Ez)). apply (cell_line xa xb ya yb nx ny m0 m H Hx Hy j _ (node2 e k) Lj Hp (nodes2_unit e k)). exists r, q. split; auto. split; auto. split; auto.
    apply (uside_side j _ Lj (nodes2_unit e k)). eauto.
Qed.
Lemma vertex_iff d : (exists v j, corner_dof e m s sf d v /\ j < 4 /\ on_line xa xb ya yb j (vx (hp m) v)) <-> exists x p k, kind x = EVertex /\ found_in M sf true x p /\ slot_on e m p x false k /\ dof_at s p k d.
Proof.
  pose proof (history_minv _ _ _ _ H) as Mi. pose proof (m_s _ _ _ Mi) as Iv. split.
  - intros [v [j [[p [k [i [h [L [D [Sd [-> [y [Ny Y]]]]]]]]]] [Lj O]]]]. pose proof (here_leaf _ L) as Hp. pose proof Sd as Sd'. apply (is_side_iff _ _ _ _ Iv) in Sd'. destruct Sd' as [_ [Li ->]].
    pose proof (corner_plane xa xb ya yb nx ny m0 m H p i Hp Li) as E. apply (line_peq _ _ _ _ _ _ _ E) in O.
    apply (cell_line xa xb ya yb nx ny m0 m H Hx Hy j p (corner i) Lj Hp (corner_unit i)) in O. destruct O as [r [q [-> [O [F U]]]]]. apply (corner_uside j i Lj Li) in U.
    exists (Vtx (hbase (he (hp m) (side m (r :: q) i)))), (r :: q), k. split; auto. split.
    + apply bnd_found. exists r, q, j, (side m (r :: q) j). split; auto. split; auto. split; auto. split; auto. split; [apply (is_side_iff _ _ _ _ Iv); auto|]. simpl.
      destruct (side_good Iv (r :: q) j Hp Lj) as [_ [_ [Ehd _]]]. destruct U as [-> | ->]; [left|right]; auto.
    + split; auto. exists y. split; auto. exists i, (side m (r :: q) i). auto.
  - intros [x [p [k [Kx [F [[y [Ny Y]] D]]]]]]. apply bnd_found in F. destruct F as [r [q [j [h [-> [O [F [L [Sd Pt]]]]]]]]]. destruct x as [v|g|c]; try discriminate Kx. simpl in Pt.
    destruct Y as [i [h' [Si [-> E]]]]. pose proof (here_leaf _ L) as Hp. pose proof Si as Si'. apply (is_side_iff _ _ _ _ Iv) in Sd, Si'. destruct Sd as [_ [Lj ->]]. destruct Si' as [_ [Li ->]].
    exists (hbase (he (hp m) (side m (r :: q) i))), j. split; [exists (r :: q), k, i, (side m (r :: q) i); split; auto; split; auto; split; auto; split; eauto|]. split; auto.
    apply (line_peq _ _ _ _ _ _ _ (peq_s _ _ (corner_plane xa xb ya yb nx ny m0 m H _ i Hp Li))). apply (cell_line xa xb ya yb nx ny m0 m H Hx Hy j _ (corner i) Lj Hp (corner_unit i)).
    exists r, q. split; auto. split; auto. split; auto. apply corner_uside; auto. destruct (side_good Iv (r :: q) j Hp Lj) as [_ [_ [Ehd _]]].
    destruct Pt as [Pt|Pt]; [left; apply (m_c _ _ _ Mi (r :: q)); auto|right; apply (m_c _ _ _ Mi (r :: q)); auto; try (apply m4_lt); congruence].
Qed.
End rect.

(** LinearSystem.add_dirichlet_constraint(None) on a rectangular grid, after any
    history of refinement: values are prescribed on exactly the dofs whose nodes lie
    on the boundary of the rectangle. *)
Theorem C71_solver nx ny (xa xb ya yb : Q) m0 M e s sf : 0 < nx -> 0 < ny -> (xa < xb)%Q -> (ya < yb)%Q ->
  mesh_history (grid_points xa xb ya yb nx ny) (grid_faces nx ny) m0 (rm M) -> n_root M = nh (hp m0) -> submesh_rooted (cells (rm M)) sf ->
  (forall p, sub_leaf (cells (rm M)) sf p -> filled (n_dofs D2 e) s p) -> e <> DQ0 ->
  exists ds, solver_dirichlet_dofs e M s None true sf = Ok (map Some ds) /\ NoDup ds /\
    forall d, In d ds <-> boundary_dof xa xb ya yb e (rm M) s sf d.
Proof.
  intros Px Py Hx Hy H Hn Rt Fi Ne. destruct (C70_region _ _ _ M e s EHalfEdge None false true sf H Hn Rt Fi ltac:(congruence)) as [ds [E [N I]]]. exists ds. split; auto. split; auto.
  intros d. rewrite I, (boundary_iff nx ny xa xb ya yb m0 M e s sf Px Py Hx Hy H Hn Rt). split.
  - intros [x [p [k [A [B [_ [C D]]]]]]]. exists x, p, k. auto.
  - intros [x [p [k [A [B [C D]]]]]]. exists x, p, k. split; auto. split; auto. split; auto. intros g; discriminate.
Qed.
Print Assumptions C71_solver.

(** Assembler.add_dirichlet(None) on a rectangular grid: only on the dofs at
    vertices of the mesh on the boundary. *)
Theorem C71_assembler nx ny (xa xb ya yb : Q) m0 M e s sf : 0 < nx -> 0 < ny -> (xa < xb)%Q -> (ya < yb)%Q ->
  mesh_history (grid_points xa xb ya yb nx ny) (grid_faces nx ny) m0 (rm M) -> n_root M = nh (hp m0) -> submesh_rooted (cells (rm M)) sf ->
  (forall p, sub_leaf (cells (rm M)) sf p -> filled (n_dofs D2 e) s p) ->
  exists ds, assembler_dirichlet_dofs e M s None true sf = Ok (map Some ds) /\ NoDup ds /\
    (forall d, In d ds <-> exists v j, corner_dof e (rm M) s sf d v /\ j < 4 /\ on_line xa xb ya yb j (vx (hp (rm M)) v)) /\
    (degree e = 1 -> forall d, In d ds <-> boundary_dof xa xb ya yb e (rm M) s sf d) /\
    (forall d, In d ds -> boundary_dof xa xb ya yb e (rm M) s sf d).
Proof.
  intros Px Py Hx Hy H Hn Rt Fi. destruct (C70_region _ _ _ M e s EVertex None false true sf H Hn Rt Fi ltac:(discriminate)) as [ds [E [N I]]]. exists ds. split; auto. split; auto.
  assert (V : forall d, In d ds <-> exists v j, corner_dof e (rm M) s sf d v /\ j < 4 /\ on_line xa xb ya yb j (vx (hp (rm M)) v)).
  { intros d. rewrite I, (vertex_iff nx ny xa xb ya yb m0 M e s sf Px Py Hx Hy H Hn Rt). split.
    - intros [x [p [k [A [B [_ [C D]]]]]]]. exists x, p, k. auto.
    - intros [x [p [k [A [B [C D]]]]]]. exists x, p, k. split; auto. split; auto. split; auto. intros g; discriminate. }
  pose proof (history_minv _ _ _ _ H) as Mi. pose proof (m_s _ _ _ Mi) as Iv.
  assert (S1 : forall d, In d ds -> boundary_dof xa xb ya yb e (rm M) s sf d).
  { intros d Id. apply V in Id. destruct Id as [v [j [[p [k [i [h [L [D [Sd [-> [y [Ny Y]]]]]]]]]] [Lj O]]]]. destruct (nodes2_at _ _ _ Ny) as [Lk ->]. pose proof (here_leaf M sf _ L) as Hp.
    apply (is_side_iff _ _ _ _ Iv) in Sd. destruct Sd as [_ [Li ->]]. destruct (position_ex nx ny xa xb ya yb m0 M e H p k Hp Lk) as [z [Z Ez]].
    exists p, k, z. split; auto. split; auto. split; auto. exists j. split; auto. apply (line_peq _ _ _ _ _ _ _ (peq_s _ _ Ez)).
    apply (line_peq _ _ _ _ _ _ _ (corner_plane xa xb ya yb nx ny m0 (rm M) H p i Hp Li)) in O.
    apply (cell_line xa xb ya yb nx ny m0 (rm M) H Hx Hy j p (corner i) Lj Hp (corner_unit i)) in O. destruct O as [r [q [A1 [A2 [A3 A4]]]]].
    apply (cell_line xa xb ya yb nx ny m0 (rm M) H Hx Hy j p (node2 e k) Lj Hp (nodes2_unit e k)). exists r, q. split; auto. split; auto. split; auto. apply (uside_peq j _ _ (peq_s _ _ Y)). auto. }
  split; auto. split; auto. intros De d. split; [apply S1|]. intros [p [k [z [L [D [Z [j [Lj O]]]]]]]]. apply V.
  destruct (position2_plane _ _ (rm M) Mi e p k z Z) as [Lk [Hp Ez]].
  assert (L4 : k < 4 /\ peq (node2 e k) (corner k)). { destruct e; try discriminate De; cbv in Lk; (destruct k as [|[|[|[|]]]]; try lia); (split; [lia|vm_compute; split; reflexivity]). }
  destruct L4 as [L4 Ek]. exists (hbase (he (hp (rm M)) (side (rm M) p k))), j. split; [exists p, k, k, (side (rm M) p k); split; auto; split; auto; split; [apply is_side_iff; auto|split; auto]|].
  - exists (node2 e k). split; auto. apply Node2Facts.nodes2_nth. auto.
  - split; auto. apply (line_peq _ _ _ _ _ _ _ (peq_s _ _ (corner_plane xa xb ya yb nx ny m0 (rm M) H p k Hp L4))). apply (line_peq _ _ _ _ _ _ _ Ez) in O.
    apply (cell_line xa xb ya yb nx ny m0 (rm M) H Hx Hy j p (node2 e k) Lj Hp (nodes2_unit e k)) in O. destruct O as [r [q [A1 [A2 [A3 A4]]]]].
    apply (cell_line xa xb ya yb nx ny m0 (rm M) H Hx Hy j p (corner k) Lj Hp (corner_unit k)). exists r, q. split; auto. split; auto. split; auto. apply (uside_peq j _ _ Ek). auto.
Qed.
Print Assumptions C71_assembler.

(** With quadratic and cubic elements dofs on the boundary are left out: those
    between the vertices.  (The unit square, one cell.) *)
Definition unit_check (e : elem) (m : mesh2) (s : dofs) : bool :=
  match assembler_dirichlet_dofs e (mkR m 4 (fun _ _ => false) (fun _ _ => false)) s None true None, fget (cells m) [0], slot s [0] 4, slot_pos e m [0] 4 with
  | Ok l, Some n, Some d, Some z => forallb (fun o => match o with Some d' => negb (d' =? d) | None => false end) l && negb (has_children n None) && Qeq_bool (snd z) 0
  | _, _, _, _ => false
  end.
Theorem C71_vertices_only_refuted e : 2 <= degree e -> exists m0 m s ds d,
  mesh_history (grid_points 0 1 0 1 1 1) (grid_faces 1 1) m0 m /\ dof_history2 edit (grid_points 0 1 0 1 1 1) (grid_faces 1 1) e m s /\
  assembler_dirichlet_dofs e (mkR m (nh (hp m0)) (fun _ _ => false) (fun _ _ => false)) s None true None = Ok (map Some ds) /\
  boundary_dof 0 1 0 1 e m s None d /\ ~ In d ds.
Proof.
  intros De. assert (C : check2 e (grid_run2 1 1 1 1 [] e [Distribute None]) (unit_check e) = true).
  { destruct e; cbn in De; try lia; vm_cast_no_check (eq_refl true). }
  destruct (check2_ok _ _ _ C) as [m [s [R E]]]. destruct (grid_run2_history 1 1 1 1 _ e _ m s eq_refl eq_refl R) as [DH _].
  destruct (history_good edit _ _ e m s (fun _ _ x => x) DH) as [[m0 MH] _]. exists m0, m, s. unfold unit_check in E. rewrite (start_nh _ _ _ _ MH). change (4 * length (grid_faces 1 1)) with 4.
  destruct (assembler_dirichlet_dofs _ _ _ _ _ _) as [l|]; [|discriminate]. destruct (fget (cells m) [0]) as [n|] eqn:En; [|discriminate].
  destruct (slot s [0] 4) as [d|] eqn:Ed; [|discriminate]. destruct (slot_pos e m [0] 4) as [z|] eqn:Ez; [|discriminate].
  rewrite !andb_true_iff, negb_true_iff in E. destruct E as [[E1 E2] E3].
  assert (X : exists ds, l = map Some ds /\ ~ In d ds).
  { clear - E1. induction l as [|o l IH]; [exists []; auto|]. cbn [forallb] in E1. apply andb_prop in E1. destruct E1 as [A B]. destruct o as [d'|]; [|discriminate].
    destruct (IH B) as [ds [-> Nd]]. exists (d' :: ds). split; auto. intros [<-|I]; auto. rewrite Nat.eqb_refl in A. discriminate. }
  destruct X as [ds [-> Nd]]. exists ds, d. split; auto. split; auto. split; auto. split; auto.
  exists [0], 4, z. split; [exists n; split; auto; split; [exact Logic.I|intros i k Ek; destruct (@GrowFacts.no_kids _ n i k E2 Ek)]|]. split; [apply slot_dof; auto|]. split; [apply slot_pos_ok; auto|]. exists 0. split; [lia|]. simpl. apply Qeq_bool_iff. auto.
Qed.
Print Assumptions C71_vertices_only_refuted.

(** The documented dir_marker, "flag to identify dirichlet halfedges": labels on
    half-edges have no effect, whatever half-edges are marked.  *)
Lemma mark_edge_vlab g f strict : forall l M M', fold_res (mark_on_edge g f EHalfEdge strict) l M = Ok M' -> vlab M' = vlab M.
Proof.
  induction l as [|h l IH]; intros M M' E; cbn [fold_res] in E; [injection E as <-; auto|]. cbn [mark_on_edge bind] in E.
  rewrite (IH _ _ E). destruct (inside _ _ _ _); reflexivity.
Qed.
Lemma mark_cell_vlab g f strict : forall l M, vlab (fold_left (mark_in_cell g f EHalfEdge strict) l M) = vlab M.
Proof.
  induction l as [|p l IH]; intros M; cbn [fold_left]; auto. rewrite IH. unfold mark_in_cell. generalize (cell_sides (rm M) p). intros hs.
  generalize (hp (rm M)). intros sp. revert M. induction hs as [|h hs IHh]; intros M; cbn [fold_left]; auto. rewrite IHh. destruct (inside _ _ _ _); reflexivity.
Qed.
Theorem C71_halfedge_marker_refuted pts faces m0 M e s g f strict on_b on_bnd sf :
  mesh_history pts faces m0 (rm M) -> n_root M = nh (hp m0) -> submesh_rooted (cells (rm M)) sf ->
  (forall p, sub_leaf (cells (rm M)) sf p -> filled (n_dofs D2 e) s p) -> (forall v, vlab M v g = false) ->
  exists M', mark_region g f EHalfEdge strict on_b None M = Ok M' /\
    (submesh_rooted (cells (rm M')) sf -> (forall p, sub_leaf (cells (rm M')) sf p -> filled (n_dofs D2 e) s p) ->
     assembler_dirichlet_dofs e M' s (Some g) on_bnd sf = Ok []).
Proof.
  intros H Hn Rt Fi V. destruct (C68_mark pts faces m0 M None g f EHalfEdge strict on_b H Hn Logic.I ltac:(discriminate)) as [M' [E [H' [Hn' _]]]].
  exists M'. split; auto. intros Rt' Fi'. assert (EV : vlab M' = vlab M).
  { unfold mark_region in E. destruct on_b; [|injection E as <-; apply mark_cell_vlab]. destruct (get_boundary_segments M None None); cbn [bind] in E; [|discriminate]. eapply mark_edge_vlab; eauto. }
  destruct (C70_region pts faces m0 M' e s EVertex (Some g) false on_bnd sf H' ltac:(congruence) Rt' Fi' ltac:(discriminate)) as [ds [Eg [_ I]]].
  unfold assembler_dirichlet_dofs. rewrite Eg. destruct ds as [|d ds]; [reflexivity|]. exfalso. destruct (proj1 (I d) (or_introl eq_refl)) as [x [p [k [Kx [_ [Lx _]]]]]].
  specialize (Lx g eq_refl). destruct x as [v|h|q]; try discriminate Kx. simpl in Lx. rewrite EV, V in Lx. discriminate.
Qed.
Print Assumptions C71_halfedge_marker_refuted.


(** A case: two cells, one of them refined, and quadratic elements: the dofs on the
    boundary and those at its vertices *)
Lemma run_filled nx ny xb yb cs e m s : (0 < xb)%Q -> (0 < yb)%Q -> grid_run2 nx ny xb yb cs e [Distribute None] = Ok (m, s) ->
  forall p, sub_leaf (cells m) None p -> filled (n_dofs D2 e) s p.
Proof.
  intros Hx Hy E. unfold grid_run2 in E. destruct (grid_run nx ny xb yb cs) as [m1|] eqn:E1; cbn [bind] in E; [|discriminate].
  destruct (grid_run_history nx ny xb yb cs m1 Hx Hy E1) as [m0 MH]. unfold run2 in E. cbn [fold_res run_cmd2 fst snd] in E. destruct (subtrees_rooted None (cells m1)); [|discriminate].
  destruct (distribute2 e m1 None no_dofs) as [s1|] eqn:E2; cbn [bind] in E; [|discriminate]. injection E as <- <-.
  apply (distributed_filled _ _ e m1 no_dofs None s1 (DH2_start _ _ _ _ _ _ MH) E2).
Qed.
Definition same_opts (r : res (list (option nat))) (l : list nat) : bool :=
  match r with Ok x => if list_eq_dec odec x (map Some l) then true else false | Err _ => false end.
Lemma same_opts_ok r l : same_opts r l = true -> r = Ok (map Some l).
Proof. unfold same_opts. destruct r as [x|]; [|discriminate]. destruct (list_eq_dec odec x (map Some l)) as [->|]; [auto|discriminate]. Qed.
Example C71_case : exists m0 m s, mesh_history (grid_points 0 2 0 1 2 1) (grid_faces 2 1) m0 m /\ nh (hp m0) = 8 /\
  submesh_rooted (cells m) None /\ (forall p, sub_leaf (cells m) None p -> filled (n_dofs D2 Q2) s p) /\
  let M := mkR m 8 (fun _ _ => false) (fun _ _ => false) in
  solver_dirichlet_dofs Q2 M s None true None = Ok (map Some [13; 2; 25; 6; 28; 3; 29; 7; 18; 0; 15; 4; 20; 1; 11; 9; 10; 12]) /\
  assembler_dirichlet_dofs Q2 M s None true None = Ok (map Some [2; 6; 3; 7; 0; 4; 1; 9; 10]).
Proof.
  assert (C : check2 Q2 (grid_run2 2 1 2 1 [CSplit None [0]] Q2 [Distribute None]) (fun m s => let M := mkR m 8 (fun _ _ => false) (fun _ _ => false) in
     same_opts (solver_dirichlet_dofs Q2 M s None true None) [13; 2; 25; 6; 28; 3; 29; 7; 18; 0; 15; 4; 20; 1; 11; 9; 10; 12] &&
     same_opts (assembler_dirichlet_dofs Q2 M s None true None) [2; 6; 3; 7; 0; 4; 1; 9; 10]) = true) by vm_cast_no_check (eq_refl true).
  destruct (check2_ok _ _ _ C) as [m [s [R E]]]. destruct (grid_run2_history 2 1 2 1 _ Q2 _ m s eq_refl eq_refl R) as [DH _].
  destruct (history_good edit _ _ Q2 m s (fun _ _ x => x) DH) as [[m0 MH] _]. exists m0, m, s. split; auto. split; [apply (start_nh _ _ _ _ MH)|]. split; [exact Logic.I|].
  split; [apply (run_filled 2 1 2 1 _ Q2 m s eq_refl eq_refl R)|]. cbv zeta in *. apply andb_prop in E. destruct E as [E1 E2]. split; apply same_opts_ok; auto.
Qed.

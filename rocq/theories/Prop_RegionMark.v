(** * C68: marking and collecting the entities of a region *)
From Coq Require Import List Arith Bool Lia QArith.
From Verif Require Import Tree Forest SpecForest TreeFacts ForestFacts LabelFacts Geom SpecGeom Dcel SpecDcel DcelFacts Segments Quad SpecQuad QuadFacts QuadInv QuadHist Solver Prop_Dcel Prop_QuadMesh Region SpecRegion RegionFacts RegionMain RegionMark NodalFacts Prop_Region BalSets.
Import ListNotations.
Open Scope nat_scope.

Section CASE.
Variables (pts : list pt) (faces : list (list nat)) (m0 : mesh2) (M : rmesh) (sf : option flag).
Hypothesis H : mesh_history pts faces m0 (rm M).
Hypothesis Hn : n_root M = nh (hp m0).
Hypothesis Rt : submesh_rooted (cells (rm M)) sf.
Let m := rm M.
Let Iv : sinv m := m_s _ _ _ (history_minv _ _ _ _ H).

Lemma is_side_in p k h : is_side m p k h -> In h (cell_sides m p).
Proof. intros [c [E N]]. unfold cell_sides. rewrite E. apply nth_error_In in N. auto. Qed.
Lemma in_is_side p h : In h (cell_sides m p) -> exists k, is_side m p k h.
Proof. unfold cell_sides. destruct (fget (cells m) p) as [c|] eqn:E; [|intros []]. intros Ih. apply In_nth_error in Ih. destruct Ih as [k Ek]. exists k, c. auto. Qed.
Lemma cell_verts_in p v : In v (cell_verts m p) <-> corner_of m (Cel p) v.
Proof.
  unfold cell_verts, corner_of. split.
  - destruct (fget (cells m) p) as [c|] eqn:E; [|intros []]. intros Iv'. apply in_map_iff in Iv'. destruct Iv' as [h [<- Ih]]. apply In_nth_error in Ih. destruct Ih as [k Ek]. exists k, h. split; auto. exists c. auto.
  - intros [k [h [[c [E N]] ->]]]. rewrite E. apply in_map_iff. exists h. split; auto. eapply nth_error_In; eauto.
Qed.
Lemma corner_head p k h : is_side m p k h -> corner_of m (Cel p) (hhead (he (hp m) h)).
Proof.
  intros Sd. apply (is_side_iff _ _ _ _ Iv) in Sd. destruct Sd as [Hp [Lk ->]]. destruct (side_good Iv p k Hp Lk) as [_ [_ [E _]]].
  exists ((k + 1) mod 4), (side m p ((k + 1) mod 4)). split; [apply (is_side_iff _ _ _ _ Iv); auto|]. exact E.
Qed.
Lemma side_cell p k h : is_side m p k h -> hcell (he (hp m) h) = Some p.
Proof. intros Sd. apply (is_side_iff _ _ _ _ Iv) in Sd. destruct Sd as [Hp [Lk ->]]. apply (side_good Iv p k Hp Lk). Qed.
Lemma tst_iff f st x : tst f st M x = true <-> in_region f st m x.
Proof.
  assert (V : forall v, In v (verts M x) <-> corner_of m x v).
  { intros v. destruct x as [w|h|p]; simpl; [split; [intros [->|[]]; auto|auto]|split; [intros [<-|[<-|[]]]; auto|intros [->| ->]; auto]|apply cell_verts_in]. }
  unfold tst, inside, in_region. destruct st.
  - rewrite forallb_forall. split; intros A v Cv; apply A, V; auto.
  - rewrite existsb_exists. split; intros [v [A B]]; exists v; split; auto; apply V; auto.
Qed.
Lemma ents_cell_iff e p x : (e = ECell -> exists c, fget (cells m) p = Some c) -> (In x (ents_cell M e p) <-> kind x = e /\ part_of_cell m p x).
Proof.
  intros Pe. destruct e; simpl.
  - rewrite in_map_iff. destruct x as [v|h|q]; simpl; split; try (intros [? [? ?]]; discriminate); try (intros [? _]; discriminate).
    + intros [w [[= ->] Iw]]. split; auto. apply cell_verts_in; auto.
    + intros [_ C]. exists v. split; auto. apply cell_verts_in; auto.
  - rewrite in_map_iff. destruct x as [v|h|q]; simpl; split; try (intros [? [? ?]]; discriminate); try (intros [? _]; discriminate).
    + intros [w [[= ->] Iw]]. split; auto. apply in_is_side; auto.
    + intros [_ [k C]]. exists h. split; auto. eapply is_side_in; eauto.
  - destruct x as [v|h|q]; simpl; split; try (intros [?|[]]; discriminate); try (intros [? _]; discriminate).
    + intros [[= ->]|[]]. auto.
    + intros [_ ->]. auto.
  - destruct x; simpl; split; try tauto; intros [? _]; discriminate.
Qed.
Lemma ents_edge_iff e p k h x : is_side m p k h -> (In x (ents_edge M e h) <-> kind x = e /\ part_of_edge m h x).
Proof.
  intros Sd. pose proof (side_cell _ _ _ Sd) as Ec. destruct e; simpl.
  - destruct x as [v|g|q]; simpl; split; try (intros [?|[?|[]]]; discriminate); try (intros [? _]; discriminate).
    + intros [[= <-]|[[= <-]|[]]]; auto.
    + intros [_ [->| ->]]; auto.
  - destruct x as [v|g|q]; simpl; split; try (intros [?|[]]; discriminate); try (intros [? _]; discriminate).
    + intros [[= ->]|[]]. auto.
    + intros [_ ->]. auto.
  - fold m. rewrite Ec. destruct x as [v|g|q]; simpl; split; try (intros [?|[]]; discriminate); try (intros [? _]; discriminate).
    + intros [[= ->]|[]]. eauto.
    + intros [_ [k' S']]. apply side_cell in S'. left. congruence.
  - destruct x; simpl; split; try tauto; intros [? _]; discriminate.
Qed.
Lemma leaves_in p : In p (map fst (fget_leaves (cells m) None sf BreadthFirst)) <-> sub_leaf (cells m) sf p.
Proof.
  rewrite in_map_iff. split.
  - intros [[p' n] [E Ip]]. cbn [fst] in E. subst p'. apply in_fget_leaves in Ip. exists n. tauto.
  - intros [n [F L]]. exists (p, n). split; auto. apply in_fget_leaves. simpl. tauto.
Qed.
Lemma segs_ok : exists segs, get_boundary_segments M sf None = Ok segs /\
  forall h, In h (concat segs) -> exists p k, is_side m p k h /\ sub_leaf (cells m) sf p.
Proof.
  destruct (C67_segments _ _ _ _ sf (hlab M) (vlab M) (hlab M) (vlab M) H Rt) as [coarse [segs [_ [E [_ [_ O]]]]]].
  exists segs. split.
  - rewrite <- E, <- Hn. destruct M; reflexivity.
  - intros h Ih. destruct (O h Ih) as [_ [r [k [_ [q [_ [L Sd]]]]]]]. exists (r :: q), k. auto.
Qed.
Lemma leaf_present p : sub_leaf (cells m) sf p -> present (cells m) p = true.
Proof. intros [n [E _]]. unfold present. rewrite E. auto. Qed.

Lemma mark_result g f e st onb : (onb = true -> e <> EOther) ->
  exists M', mark_region g f e st onb sf M = Ok M' /\
    marked_by g (fun x => kind x = e /\ (exists p, found_in M sf onb x p) /\ in_region f st m x) M M'.
Proof.
  intros Ne. unfold mark_region. destruct onb.
  - destruct segs_ok as [segs [Es Hs]]. rewrite Es. cbn [bind].
    destruct (mark_edges g f e st M (Ne eq_refl) (concat segs) _ M (mb_refl g M)) as [M' [E' B]].
    { intros h Ih. destruct (Hs h Ih) as [p [k [Sd L]]]. exists p. split; [eapply side_cell; eauto|apply leaf_present; auto]. }
    exists M'. split; auto. refine (mb_ext _ _ _ _ _ _ B). intros x. cbv beta. unfold found_in. split.
    + intros [[]|[h [Ih [Ix T]]]]. destruct (Hs h Ih) as [p [k [Sd L]]]. apply (ents_edge_iff e p k h x Sd) in Ix. destruct Ix as [Kx Px].
      split; auto. split; [|apply tst_iff; auto]. exists p, segs, h. repeat (split; auto). exists k. auto.
    + intros [Kx [[p [segs' [h [Es' [Ih [[k Sd] Px]]]]]] T]]. right. exists h. assert (segs' = segs) by congruence. subst segs'.
      split; auto. split; [apply (ents_edge_iff e p k h x Sd); auto|apply tst_iff; auto].
  - eexists. split; [reflexivity|].
    pose proof (mark_cells g f e st M (map fst (fget_leaves (cells (rm M)) None sf BreadthFirst)) _ M (mb_refl g M)) as B.
    refine (mb_ext _ _ _ _ _ _ (B _)); [|intros p Ip; apply leaf_present, leaves_in; auto].
    intros x. cbv beta. unfold found_in. split.
    + intros [[]|[p [Ip [Ix T]]]]. apply leaves_in in Ip. apply ents_cell_iff in Ix; [|intros _; destruct Ip as [n [E _]]; eauto].
      destruct Ix as [Kx Px]. split; auto. split; [exists p; auto|apply tst_iff; auto].
    + intros [Kx [[p [L Px]] T]]. right. exists p. split; [apply leaves_in; auto|]. split; [|apply tst_iff; auto].
      apply ents_cell_iff; auto. intros _. destruct L as [n [E _]]. eauto.
Qed.
(** what get_region returns *)
Lemma found_edge onb x p : found_in M sf onb x p -> sub_leaf (cells m) sf p.
Proof.
  destruct onb; simpl; [|tauto]. intros [segs [h [Es [Ih [[k Sd] _]]]]]. destruct segs_ok as [segs' [Es' Hs]]. assert (segs' = segs) by congruence. subst segs'.
  destruct (Hs h Ih) as [q [j [Sq Lq]]]. assert (q = p) by (apply side_cell in Sq, Sd; congruence). subst q. auto.
Qed.
Lemma get_result fl e onb : exists out, get_region_cells fl e onb sf M = Ok out /\
  forall x p, In (x, p) out <-> kind x = e /\ found_in M sf onb x p /\ (forall g, fl = Some g -> labelled M x g).
Proof.
  unfold get_region_cells.
  assert (LB : forall x, ent_marked M fl x = true <-> (forall g, fl = Some g -> labelled M x g)).
  { intros x. destruct fl as [g|]; simpl; [|split; [intros _ ? [=]|auto]]. split; [intros E g' [= <-]|intros A; specialize (A g eq_refl)]; destruct x; simpl in *; auto. }
  destruct onb.
  - destruct segs_ok as [segs [Es Hs]]. rewrite Es. cbn [bind].
    assert (EC : forall hs, (forall h, In h hs -> In h (concat segs)) -> exists l, map_res (edge_candidates M e) hs = Ok l /\
       forall x p, In (x, p) (concat l) <-> exists h, In h hs /\ hcell (he (hp m) h) = Some p /\ kind x = e /\ part_of_edge m h x).
    { induction hs as [|h hs IH]; intros Inc; cbn [map_res].
      - exists []. split; auto. intros x p. simpl. split; [intros []|intros [h [[] _]]].
      - destruct (Hs h (Inc h (or_introl eq_refl))) as [p [k [Sd L]]]. destruct (IH (fun z Iz => Inc z (or_intror Iz))) as [l [El Hl]].
        pose proof (side_cell _ _ _ Sd) as Ec. unfold edge_candidates at 1. fold m. rewrite Ec. cbn [bind]. rewrite El. cbn [bind]. eexists. split; [reflexivity|].
        intros x q. cbn [concat]. rewrite in_app_iff, Hl.
        assert (HD : In (x, q) (match e with EVertex => map (fun v => (Vtx v, p)) (he_vertices (hp m) h) | EHalfEdge => [(Hed h, p)] | ECell => [(Cel p, p)] | EOther => [] end)
           <-> q = p /\ In x (ents_edge M e h)).
        { destruct e; simpl; fold m; rewrite ?Ec; simpl.
          - split; [intros [[= <- <-]|[[= <- <-]|[]]]; auto|intros [-> [<-|[<-|[]]]]; auto].
          - split; [intros [[= <- <-]|[]]; auto|intros [-> [<-|[]]]; auto].
          - split; [intros [[= <- <-]|[]]; auto|intros [-> [<-|[]]]; auto].
          - tauto. }
        rewrite HD, (ents_edge_iff e p k h x Sd). split.
        + intros [[-> [Kx Px]]|[z [Iz [Cz Pz]]]]; [exists h; repeat (split; auto); left; auto|exists z; split; [right|]; auto].
        + intros [z [[<-|Iz] [Cz Pz]]]; [left; split; [congruence|auto]|right; exists z; auto]. }
    destruct (EC (concat segs) (fun h Ih => Ih)) as [l [El Hl]]. rewrite El. cbn [bind]. eexists. split; [reflexivity|].
    intros x p. rewrite filter_In. cbn [fst]. rewrite LB, Hl. unfold found_in. split.
    + intros [[h [Ih [Cz [Kx Px]]]] B]. split; auto. split; auto. exists segs, h. split; auto. split; auto. split; auto.
      destruct (Hs h Ih) as [p' [k [Sd _]]]. exists k. pose proof (side_cell _ _ _ Sd). assert (p' = p) by congruence. subst p'. auto.
    + intros [Kx [[segs' [h [Es' [Ih [[k Sd] Px]]]]] B]]. split; auto. assert (segs' = segs) by congruence. subst segs'. exists h. split; auto. split; [eapply side_cell; eauto|auto].
  - cbn [bind]. eexists. split; [reflexivity|]. intros x p. rewrite filter_In. cbn [fst]. rewrite LB. unfold found_in. fold m.
    assert (CC : forall q, In (x, p) (cell_candidates M e q) <-> q = p /\ kind x = e /\ part_of_cell m q x).
    { intros q. destruct e; simpl; fold m.
      - rewrite in_flat_map. split.
        + intros [h [Ih Ix]]. destruct (in_is_side _ _ Ih) as [k Sd]. destruct Ix as [[= <- <-]|[[= <- <-]|[]]]; (split; [auto|split; [auto|]]); simpl; [exists k, h; auto|eapply corner_head; eauto].
        + intros [-> [Kx Px]]. destruct x; try discriminate. destruct Px as [k [h [Sd ->]]]. exists h. split; [eapply is_side_in; eauto|left; auto].
      - rewrite in_map_iff. split.
        + intros [h [[= <- <-] Ih]]. split; [auto|split; [auto|]]. apply in_is_side; auto.
        + intros [-> [Kx Px]]. destruct x; try discriminate. destruct Px as [k Sd]. exists h. split; [auto|eapply is_side_in; eauto].
      - split; [intros [[= <- <-]|[]]; simpl; auto|]. intros [-> [Kx Px]]. destruct x; try discriminate. simpl in Px. subst. auto.
      - split; [intros []|]. intros [_ [Kx _]]. destruct x; discriminate. }
    rewrite in_flat_map. split.
    + intros [[q [Iq C]] B]. apply CC in C. destruct C as [-> [Kx Px]]. apply leaves_in in Iq. auto.
    + intros [Kx [[L Px] B]]. split; auto. exists p. split; [apply leaves_in; auto|]. apply CC. auto.
Qed.
End CASE.

(** changing only labels that the submesh does not look at *)
Section EXT.
Variables (M M' : rmesh) (sf : option flag).
Hypothesis E1 : hp (rm M') = hp (rm M).
Hypothesis E2 : forall p, info (cells (rm M')) p = info (cells (rm M)) p.
Hypothesis E3 : n_root M' = n_root M.
Hypothesis E4 : forall s p, sf = Some s -> marked_at (cells (rm M')) p s = marked_at (cells (rm M)) p s.
Lemma ext_pres p : present (cells (rm M')) p = present (cells (rm M)) p.
Proof. specialize (E2 p). unfold info, present in *. destruct (fget (cells (rm M')) p), (fget (cells (rm M)) p); simpl in *; congruence. Qed.
Lemma ins_iff (f : forest (list nat)) p : in_sub f sf p <-> present f p = true /\ forall s, sf = Some s -> marked_at f p s = true.
Proof.
  unfold in_sub, present, marked_at. destruct (fget f p) as [n|]; [|split; [intros [n [[=] _]]|intros [[=] _]]]. split.
  - intros [n' [[= <-] F]]. split; auto. intros s ->. exact F.
  - intros [_ A]. exists n. split; auto. destruct sf as [s|]; [exact (A s eq_refl)|exact Logic.I].
Qed.
Lemma ext_ins p : in_sub (cells (rm M')) sf p <-> in_sub (cells (rm M)) sf p.
Proof. rewrite !ins_iff, ext_pres. split; intros [A B]; split; auto; intros s Es; [rewrite <- E4|rewrite E4]; auto. Qed.
Lemma ext_leaf p : sub_leaf (cells (rm M')) sf p <-> sub_leaf (cells (rm M)) sf p.
Proof.
  destruct p as [|i p]; [split; intros [n [[=] _]]|]. rewrite !BalSets.sub_leaf_set by discriminate. unfold BalSets.leafS. rewrite ext_ins. split; intros [A B]; split; auto; intros j; [rewrite <- ext_ins|rewrite ext_ins]; auto.
Qed.
Lemma ext_rooted : submesh_rooted (cells (rm M)) sf -> submesh_rooted (cells (rm M')) sf.
Proof.
  destruct sf as [s|]; simpl; auto. intros [A [B C]]. split; [|split].
  - intros i. rewrite ext_pres, E4; auto.
  - intros a i r Na. rewrite !E4 by auto. eauto.
  - intros a i j Na. rewrite ext_pres, !E4 by auto. eauto.
Qed.
Lemma has_kids_iff m p : p <> [] -> (cell_has_children m p sf = true <-> exists i, in_sub (cells m) sf (p ++ [i])).
Proof.
  intros Np. unfold cell_has_children. destruct (fget (cells m) p) as [n|] eqn:E.
  - rewrite has_children_fl. split.
    + intros [i [k [Ei F]]]. exists i, k. rewrite fget_snoc, E, Ei by auto. auto.
    + intros [i [k [Ei F]]]. rewrite fget_snoc, E in Ei by auto. destruct (nth_error (n_slots n) i) as [[o|]|] eqn:En; try discriminate. injection Ei as ->. exists i, k. auto.
  - split; [discriminate|]. intros [i [k [Ei F]]]. rewrite fget_snoc, E in Ei by auto. discriminate.
Qed.
Lemma ext_kids p : cell_has_children (rm M') p sf = cell_has_children (rm M) p sf.
Proof.
  destruct p as [|j p]; [reflexivity|]. apply eq_true_iff_eq. rewrite !has_kids_iff by discriminate. split; intros [i A]; exists i; apply ext_ins; auto.
Qed.
Lemma ext_expand : forall fuel todo seg, expand fuel (rm M') sf todo seg = expand fuel (rm M) sf todo seg.
Proof.
  induction fuel as [|n IH]; intros [|h todo] seg; cbn [expand]; auto. rewrite E1. destruct (hcell (he (hp (rm M)) h)) as [c|]; auto.
  rewrite ext_kids. destruct (cell_has_children (rm M) c sf); auto. destruct (index_nat h seg); auto.
Qed.
Lemma ext_segs : get_boundary_segments M' sf None = get_boundary_segments M sf None.
Proof.
  unfold get_boundary_segments, root_boundary. rewrite E1, E3. destruct (group _ _ VMesh _) as [bnd|]; cbn [bind]; auto.
  clear - E1 E2 E3 E4. induction bnd as [|c l IH]; cbn [map_res]; auto. rewrite ext_expand, IH. auto.
Qed.
Lemma ext_side p k h : is_side (rm M') p k h <-> is_side (rm M) p k h.
Proof.
  specialize (E2 p). unfold is_side, info in *. destruct (fget (cells (rm M')) p) as [a|], (fget (cells (rm M)) p) as [b|]; simpl in *; try discriminate; [|split; intros [c [[=] _]]].
  injection E2 as E5 _ _. split; intros [c [[= <-] N]]; [exists b|exists a]; split; congruence.
Qed.
Lemma ext_corner x v : corner_of (rm M') x v <-> corner_of (rm M) x v.
Proof. destruct x as [w|h|p]; simpl; rewrite ?E1; try tauto. split; intros [k [h [A B]]]; exists k, h; split; auto; apply ext_side; auto. Qed.
Lemma ext_found onb x p : found_in M' sf onb x p <-> found_in M sf onb x p.
Proof.
  unfold found_in. destruct onb.
  - rewrite ext_segs. split; intros [segs [h [A [B [[k C] D]]]]]; exists segs, h; (split; [auto|]); (split; [auto|]); (split; [exists k; apply ext_side; auto|]);
      destruct x as [w|g|q]; simpl in *; rewrite ?E1 in *; auto; destruct D as [j D]; exists j; apply ext_side; auto.
  - rewrite ext_leaf. split; intros [A B]; split; auto; destruct x as [w|g|q]; simpl in *; auto.
    + destruct B as [k [h [S' ->]]]. exists k, h. rewrite <- E1. split; auto. apply ext_side; auto.
    + destruct B as [k S']. exists k. apply ext_side; auto.
    + destruct B as [k [h [S' ->]]]. exists k, h. rewrite E1. split; auto. apply ext_side; auto.
    + destruct B as [k S']. exists k. apply ext_side; auto.
Qed.
End EXT.

(** mark_region, on any mesh after any history, for every submesh, kind of entity
    and region: the label is added to the entities of that kind of the submesh
    (of its boundary) that lie in the region, and nothing else is changed.  (Asking
    for an unknown kind of entity raises an exception only on the boundary.) *)
Theorem C68_mark pts faces m0 M sf g f e strict on_boundary :
  mesh_history pts faces m0 (rm M) -> n_root M = nh (hp m0) -> submesh_rooted (cells (rm M)) sf -> e <> EOther ->
  exists M', mark_region g f e strict on_boundary sf M = Ok M' /\
    mesh_history pts faces m0 (rm M') /\ n_root M' = n_root M /\ hp (rm M') = hp (rm M) /\
    same_but (only_flag g) (cells (rm M)) (cells (rm M')) /\
    (forall x k, labelled M' x k <-> labelled M x k \/
       (k = g /\ kind x = e /\ (exists p, found_in M sf on_boundary x p) /\ in_region f strict (rm M) x)).
Proof.
  intros H Hn Rt Ne. destruct (mark_result pts faces m0 M sf H Hn Rt g f e strict on_boundary (fun _ => Ne)) as [M' [E B]].
  exists M'. split; auto. destruct B as [a b c d s l]. split; [|auto].
  destruct H as [H1 [H2 [H3 H4]]]. split; auto. split; auto. split; auto. eapply edits_trans; eauto.
Qed.
Print Assumptions C68_mark.

(** get_region returns the entities of the given kind of the submesh (of its
    boundary) that carry the label, with return_cells each with the cells of the
    submesh that contain it. *)
Theorem C68_get pts faces m0 M sf fl e on_boundary :
  mesh_history pts faces m0 (rm M) -> n_root M = nh (hp m0) -> submesh_rooted (cells (rm M)) sf ->
  exists out, get_region_cells fl e on_boundary sf M = Ok out /\ get_region fl e on_boundary sf M = Ok (map fst out) /\
    (forall x p, In (x, p) out <-> kind x = e /\ found_in M sf on_boundary x p /\ (forall g, fl = Some g -> labelled M x g)) /\
    (forall x p, In (x, p) out -> sub_leaf (cells (rm M)) sf p).
Proof.
  intros H Hn Rt. destruct (get_result pts faces m0 M sf H Hn Rt fl e on_boundary) as [out [E I]]. exists out. split; auto.
  split; [unfold get_region; rewrite E; reflexivity|]. split; auto. intros x p Ix. apply I in Ix. destruct Ix as [_ [F _]]. exact (found_edge pts faces m0 M sf H Hn Rt _ _ _ F).
Qed.
Print Assumptions C68_get.

(** A region that was marked is found again: get_region returns the entities that
    lie in the region and those that had the label before.  The label may be the
    one of the submesh. *)
Theorem C68_mark_get pts faces m0 M sf g f e strict on_boundary :
  mesh_history pts faces m0 (rm M) -> n_root M = nh (hp m0) -> submesh_rooted (cells (rm M)) sf -> e <> EOther ->
  exists M' out, mark_region g f e strict on_boundary sf M = Ok M' /\
    get_region (Some g) e on_boundary sf M' = Ok out /\
    (forall x, In x out <-> kind x = e /\ (exists p, found_in M sf on_boundary x p) /\ (in_region f strict (rm M) x \/ labelled M x g)) /\
    get_boundary_segments M' sf None = get_boundary_segments M sf None /\
    (forall p, sub_leaf (cells (rm M')) sf p <-> sub_leaf (cells (rm M)) sf p).
Proof.
  intros H Hn Rt Ne. destruct (C68_mark pts faces m0 M sf g f e strict on_boundary H Hn Rt Ne) as [M' [E [H' [Hn' [Ehp [_ L]]]]]].
  destruct (mark_result pts faces m0 M sf H Hn Rt g f e strict on_boundary (fun _ => Ne)) as [M2 [E2 B]]. assert (M2 = M') by congruence. subst M2.
  assert (E4 : forall s p, sf = Some s -> marked_at (cells (rm M')) p s = marked_at (cells (rm M)) p s).
  { intros s p Es. apply eq_true_iff_eq. rewrite (L (Cel p) s : marked_at (cells (rm M')) p s = true <-> _). split; [|auto].
    intros [A|[-> [_ [[q F] _]]]]; auto. assert (Lp : sub_leaf (cells (rm M)) sf p).
    { pose proof (found_edge pts faces m0 M sf H Hn Rt _ _ _ F) as Lq. destruct on_boundary; simpl in F.
      - destruct F as [segs [h [_ [_ [[k S1] [j S2]]]]]]. assert (p = q) by (pose proof (side_cell _ _ _ _ H _ _ _ S1); pose proof (side_cell _ _ _ _ H _ _ _ S2); congruence). subst q. auto.
      - destruct F as [_ ->]. auto. }
    destruct Lp as [n [En [Fn _]]]. rewrite Es in Fn. unfold marked_at. rewrite En. exact Fn. }
  destruct B as [a b c _ _ _]. pose proof (ext_rooted M M' sf b E4 Rt) as Rt'.
  destruct (C68_get pts faces m0 M' sf (Some g) e on_boundary H' ltac:(congruence) Rt') as [out [G1 [G2 [G3 _]]]].
  exists M', (map fst out). split; auto. split; auto. split; [|split; [apply ext_segs; auto|intros; apply ext_leaf; auto]].
  intros x. rewrite in_map_iff. split.
  - intros [[y p] [Ey Ip]]. cbn [fst] in Ey. subst y. apply G3 in Ip. destruct Ip as [Kx [F Lx]]. specialize (Lx g eq_refl). split; auto. split.
    + exists p. apply (ext_found M M' sf); auto.
    + apply L in Lx. destruct Lx as [A|[_ [_ [_ A]]]]; auto.
  - intros [Kx [[p F] A]]. exists (x, p). split; auto. apply G3. split; auto. split; [apply (ext_found M M' sf); auto|].
    intros g' [= <-]. apply L. destruct A as [A|A]; [right; split; auto; split; auto; split; eauto|auto].
Qed.
Print Assumptions C68_mark_get.

(** A case: on the mesh of C67_case the vertices, the cells and the half-edges of
    a region. *)
Example C68_case : exists m0, mesh_history (grid_points 0 2 0 1 2 1) (grid_faces 2 1) m0 (rm ex_R) /\ n_root ex_R = nh (hp m0) /\
  submesh_rooted (cells (rm ex_R)) None /\
  bind (mark_region 7 (fun p => Qeq_bool (fst p) 0) EVertex true true None ex_R) (get_region (Some 7) EVertex true None) = Ok [Vtx 3; Vtx 3; Vtx 10; Vtx 10; Vtx 0; Vtx 0] /\
  bind (mark_region 7 (fun p => Qeq_bool (fst p) 0) ECell false false None ex_R) (get_region (Some 7) ECell false None) = Ok [Cel [0; 0]; Cel [0; 3]] /\
  bind (mark_region 7 (fun p => Qeq_bool (fst p) 1) EHalfEdge true false None ex_R) (get_region (Some 7) EHalfEdge false None) = Ok [Hed 13; Hed 53; Hed 52; Hed 28; Hed 29].
Proof.
  destruct C67_case as [m0 [H [E [R _]]]]. exists m0. split; [exact H|]. split; [symmetry; exact E|]. split; [exact R|].
  split; [vm_cast_no_check (@eq_refl (res (list ent)) (Ok [Vtx 3; Vtx 3; Vtx 10; Vtx 10; Vtx 0; Vtx 0]))|].
  split; [vm_cast_no_check (@eq_refl (res (list ent)) (Ok [Cel [0; 0]; Cel [0; 3]]))|].
  vm_cast_no_check (@eq_refl (res (list ent)) (Ok [Hed 13; Hed 53; Hed 52; Hed 28; Hed 29])).
Qed.

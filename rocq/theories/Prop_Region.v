(** * C67: the boundary of a refined mesh *)
From Coq Require Import List Arith Bool Lia Permutation QArith.
From Verif Require Import Tree Forest SpecForest Geom SpecGeom Dcel SpecDcel DcelFacts GridFacts Segments Quad SpecQuad QuadHist Solver Prop_Dcel Prop_Grid Prop_Segments Prop_QuadMesh Region SpecRegion RegionFacts RegionMain.
Import ListNotations.
Open Scope nat_scope.

(** Whatever was split and labelled before: get_boundary_segments of a submesh
    returns the segments of the unrefined mesh, each cut into the pieces that
    the leaves of the submesh make of it, in order; none of the pieces has a
    twin. *)
Theorem C67_segments pts faces m0 m sf hl vl hl' vl' : mesh_history pts faces m0 m -> submesh_rooted (cells m) sf ->
  exists coarse segs,
    get_boundary_segments (mkR m0 (nh (hp m0)) hl vl) None None = Ok coarse /\
    get_boundary_segments (mkR m (nh (hp m0)) hl' vl') sf None = Ok segs /\
    Forall2 (cut_into m0 m sf) coarse segs /\
    NoDup (concat segs) /\
    (forall h, In h (concat segs) -> twin (he (hp m) h) = None /\ on_outer faces m sf h).
Proof.
  intros H Rt. destruct (refined_ok _ _ _ _ H sf hl vl hl' vl' Rt) as [coarse [segs [E1 [E2 [N [Inc [J [F T]]]]]]]].
  exists coarse, segs. split; auto. split; auto. split; auto.
  assert (OUT : forall c s, cut_into m0 m sf c s -> incl c (root_boundary m0 (nh (hp m0))) -> forall h, In h s ->
     exists r k g, In g c /\ is_side m0 [r] k g /\ piece_of m sf r k h /\ outer_side faces r k).
  { intros c s [_ [_ [_ [_ [_ Mem]]]]] Ic h Ih. apply Mem in Ih. destruct Ih as [r [k [g [Ig [Hg Pc]]]]]. exists r, k, g. repeat (split; auto).
    - apply Ic in Ig. apply (root_boundary_in _ _ _ _ H _ _ (hist0 _ _ _ _ H)) in Ig. destruct Ig as [r' [k' [Hg' O]]].
      destruct (root_side_inv _ _ _ _ H _ _ _ _ (hist0 _ _ _ _ H) Hg) as [_ [_ [L1 e1]]]. destruct (root_side_inv _ _ _ _ H _ _ _ _ (hist0 _ _ _ _ H) Hg') as [_ [_ [L2 e2]]].
      assert (r' = r /\ k' = k) as [-> ->] by lia. apply O.
    - apply Ic in Ig. apply (root_boundary_in _ _ _ _ H _ _ (hist0 _ _ _ _ H)) in Ig. destruct Ig as [r' [k' [Hg' O]]].
      destruct (root_side_inv _ _ _ _ H _ _ _ _ (hist0 _ _ _ _ H) Hg) as [_ [_ [L1 e1]]]. destruct (root_side_inv _ _ _ _ H _ _ _ _ (hist0 _ _ _ _ H) Hg') as [_ [_ [L2 e2]]].
      assert (r' = r /\ k' = k) as [-> ->] by lia. apply O. }
  pose proof (history_minv _ _ _ _ H) as M.
  assert (UNI : forall r k r' k' h, piece_of m sf r k h -> piece_of m sf r' k' h -> r = r' /\ k = k').
  { intros r k r' k' h [q [_ [_ S1]]] [q' [_ [_ S2]]]. apply is_side_iff in S1, S2; try apply M. destruct S1 as [H1 [L1 E]]. destruct S2 as [H2 [L2 E']].
    destruct (QuadInv.side_inj (m_s _ _ _ M) _ _ _ _ H1 H2 L1 L2 ltac:(congruence)) as [Ep ->]. injection Ep as -> _. auto. }
  split.
  - clear E1 E2 T J. revert N Inc F. revert segs. induction coarse as [|c l IH]; intros segs N Inc F; inversion F as [|? s ? l' Fc Fl]; subst; [constructor|].
    simpl in N, Inc. apply SegFacts.NoDup_app_inv in N. destruct N as [N1 [N2 N3]].
    assert (Inc2 : incl (concat l) (root_boundary m0 (nh (hp m0)))) by (intros x Ix; apply Inc, in_or_app; auto).
    specialize (IH l' N2 Inc2 Fl). simpl.
    assert (DJ : forall x, In x s -> ~ In x (concat l')).
    { intros x Ix Iy. destruct (OUT c s Fc ltac:(intros y Iy'; apply Inc, in_or_app; auto) x Ix) as [r [k [g [Ig [Hg [Pc _]]]]]].
      apply in_concat in Iy. destruct Iy as [s' [Is' Ix']]. clear IH. assert (EX : exists c', In c' l /\ cut_into m0 m sf c' s').
      { clear - Fl Is'. induction Fl as [|a b l l' Fa Fl IH]; [destruct Is'|]. destruct Is' as [<-|Is']; [exists a; split; [left|]; auto|]. destruct (IH Is') as [c' [Ic' Cc']]. exists c'. split; [right|]; auto. }
      destruct EX as [c' [Ic' Cc']]. destruct (OUT c' s' Cc' ltac:(intros y Iy'; apply Inc2, in_concat; eauto) x Ix') as [r' [k' [g' [Ig' [Hg' [Pc' _]]]]]].
      destruct (UNI _ _ _ _ _ Pc Pc') as [-> ->].
      destruct (root_side_inv _ _ _ _ H _ _ _ _ (hist0 _ _ _ _ H) Hg) as [_ [_ [L1 e1]]]. destruct (root_side_inv _ _ _ _ H _ _ _ _ (hist0 _ _ _ _ H) Hg') as [_ [_ [L2 e2]]].
      assert (Eg : g = g') by lia. apply (N3 g Ig). apply in_concat. exists c'. rewrite Eg. split; assumption. }
    assert (Ns : NoDup s) by apply Fc. clear - Ns IH DJ. induction s as [|x s IHs]; auto. inversion Ns; subst. cbn [app]. constructor.
    + intros Ix. apply in_app_or in Ix. destruct Ix; auto. apply (DJ x); auto. left; auto.
    + apply IHs; auto. intros y Iy. apply DJ. right; auto.
  - intros h Ih. split; auto. apply in_concat in Ih. destruct Ih as [s [Is Ih]].
    assert (EX : exists c, In c coarse /\ cut_into m0 m sf c s).
    { clear - F Is. induction F as [|a b l l' Fa Fl IH]; [destruct Is|]. destruct Is as [<-|Is]; [exists a; split; [left|]; auto|]. destruct (IH Is) as [c' [Ic' Cc']]. exists c'. split; [right|]; auto. }
    destruct EX as [c [Ic Cc]]. destruct (OUT c s Cc ltac:(intros y Iy; apply Inc, in_concat; eauto) h Ih) as [r [k [g [_ [_ [Pc O]]]]]]. exists r, k. auto.
Qed.
Print Assumptions C67_segments.

(** The unrefined mesh: its segments are those of C27. *)
Theorem C67_coarse pts faces m0 m d hl vl : mesh_history pts faces m0 m -> determine2 (length pts) faces = Ok d ->
  get_boundary_segments (mkR m0 (nh (hp m0)) hl vl) None None = coarse_boundary_segments d /\
  (forall h, In h (boundary_hes d) <-> exists r k, is_side m0 [r] k h /\ outer_side faces r k).
Proof.
  intros H Ed. destruct (coarse_dcel _ _ _ _ H d hl vl Ed) as [E1 [E2 _]]. split; auto. intros h. rewrite <- E2. apply (root_boundary_in _ _ _ _ H _ _ (hist0 _ _ _ _ H)).
Qed.
Print Assumptions C67_coarse.

(** Rectangular grids of every resolution, after every history: one closed
    segment, joined head to base, with exactly the half-edges of the leaves of
    the submesh that lie on the boundary, each once. *)
Theorem C67_rectangle nx ny (xa xb ya yb : Q) m0 m sf hl vl : 0 < nx -> 0 < ny ->
  mesh_history (grid_points xa xb ya yb nx ny) (grid_faces nx ny) m0 m -> submesh_rooted (cells m) sf ->
  exists s, get_boundary_segments (mkR m (nh (hp m0)) hl vl) sf None = Ok [s] /\ NoDup s /\ s <> [] /\
    joined_hes (hp m) s /\ hhead (he (hp m) (last s 0)) = hbase (he (hp m) (hd 0 s)) /\
    (forall h, In h s <-> on_outer (grid_faces nx ny) m sf h) /\
    get_boundary_vertices (mkR m (nh (hp m0)) hl vl) None sf = Ok (map (fun h => hbase (he (hp m) h)) s) /\
    (forall v, In v (map (fun h => hbase (he (hp m) h)) s) <->
       exists h, on_outer (grid_faces nx ny) m sf h /\ In v (he_vertices (hp m) h)).
Proof.
  intros Px Py H Rt. destruct (C67_segments _ _ _ _ sf hl vl hl vl H Rt) as [coarse [segs [E1 [E2 [F [N O]]]]]].
  pose proof H as [PM [QF [[d [Ed Em]] _]]].
  assert (ER : rectangular2 nx ny = Ok d).
  { unfold rectangular2. assert (LP : length (grid_points xa xb ya yb nx ny) = (nx + 1) * (ny + 1)) by (destruct (C25_grid_size nx ny) as [d' [_ [Ep [_ [_ [_ [_ EL]]]]]]]; rewrite EL, Ep; auto). rewrite LP in Ed. exact Ed. }
  destruct (C27_rectangle nx ny d Px Py ER) as [c [Ec [Pm [Jc Cc]]]].
  destruct (coarse_dcel _ _ _ _ H d hl vl Ed) as [D1 [D2 D3]]. rewrite D1, Ec in E1. injection E1 as <-.
  inversion F as [|? s ? l Cs Fl]; subst. inversion Fl; subst. exists s. split; auto.
  pose proof Cs as [Ne [Ns [Js [Bs [Hs Mem]]]]]. split; auto. split; auto. split; auto.
  assert (Nc : c <> []). { intros ->. destruct s as [|x s]; [congruence|]. destruct (proj1 (Mem x) (or_introl eq_refl)) as [r [k [g [[] _]]]]. }
  assert (Lc : forall g, In g c -> g < nh (hp m0)).
  { intros g Ig. apply (Permutation_in _ Pm) in Ig. rewrite <- D2 in Ig. apply filter_In in Ig. destruct Ig as [Ig _]. apply in_seq in Ig. lia. }
  assert (CL : hhead (he (hp m) (last s 0)) = hbase (he (hp m) (hd 0 s))).
  { rewrite Hs, Bs. destruct (D3 (last c 0)) as [_ ->]; [apply Lc; destruct (exists_last Nc) as [u [z ->]]; rewrite last_last; apply in_or_app; right; left; auto|].
    destruct (D3 (hd 0 c)) as [-> _]; [apply Lc; destruct c; [congruence|left; auto]|]. exact Cc. }
  split; auto.
  assert (MM : forall h, In h s <-> on_outer (grid_faces nx ny) m sf h).
  { intros h. split.
    - intros Ih. apply O. simpl. rewrite app_nil_r. auto.
    - intros [r [k [Ou Pc]]]. apply Mem. destruct Ou as [[fc [Ef Lk]] Ou]. pose proof (history_minv _ _ _ _ (hist0 _ _ _ _ H)) as M0.
      assert (L4 : k < 4). { unfold quad_faces in QF. rewrite Forall_forall in QF. destruct (QF fc (nth_error_In _ _ Ef)) as [_ L]. lia. }
      assert (Lr : r < length (grid_faces nx ny)) by (apply nth_error_Some; congruence).
      exists r, k, (4 * r + k). assert (Sd : is_side m0 [r] k (4 * r + k)).
      { apply is_side_iff; [apply M0|]. split; [apply (m_roots _ _ _ M0); auto|]. split; auto. symmetry. apply (m_base _ _ _ M0 r k Lr L4). }
      split; [|split; auto]. apply (Permutation_in _ (Permutation_sym Pm)). rewrite <- D2. apply (root_boundary_in _ _ _ _ H _ _ (hist0 _ _ _ _ H)).
      exists r, k. split; auto. split; auto. exists fc. auto. }
  split; auto. split.
  - unfold get_boundary_vertices. rewrite E2. cbn [bind flat_map rm]. rewrite app_nil_r. auto.
  - intros v. split.
    + intros Iv. apply in_map_iff in Iv. destruct Iv as [h [<- Ih]]. exists h. split; [apply MM; auto|left; auto].
    + intros [h [Oh Iv]]. apply MM in Oh. destruct Iv as [<-|[<-|[]]]; [apply in_map_iff; eauto|].
      destruct (SegFacts.in_last_or_succ s h Oh) as [El|[l1 [b [l2 Es]]]].
      * rewrite <- El, CL. apply in_map_iff. exists (hd 0 s). split; auto. destruct s; [congruence|left; auto].
      * unfold joined_hes in Js. rewrite Es in Js. pose proof (SegFacts.chain_interior (fun x => hbase (he (hp m) x)) (fun x => hhead (he (hp m) x)) _ _ _ _ Js) as Jn.
        cbv beta in Jn. rewrite Jn. apply in_map_iff. exists b. split; auto. rewrite Es. apply in_or_app; right; right; left; auto.
Qed.
Print Assumptions C67_rectangle.

(** Selecting by a label: every labelled piece is returned; others may be too
    (C27_label_refuted). *)
Theorem C67_label_partial pts faces m0 m sf g hl vl segs : mesh_history pts faces m0 m -> submesh_rooted (cells m) sf ->
  get_boundary_segments (mkR m (nh (hp m0)) hl vl) sf None = Ok segs ->
  exists out, get_boundary_segments (mkR m (nh (hp m0)) hl vl) sf (Some g) = Ok out /\
    Forall2 (fun s o => filter (fun h => hl h g) o = filter (fun h => hl h g) s /\ incl o s) segs out.
Proof.
  intros H Rt E. unfold get_boundary_segments in *. cbn [rm n_root hlab] in *.
  destruct (group _ _ VMesh _) as [bnd|]; [|discriminate]. cbn [bind] in *. revert segs E. induction bnd as [|c l IH]; intros segs E; cbn [map_res] in *.
  - injection E as <-. exists []. split; auto.
  - destruct (expand (nh (hp m)) m sf c c) as [s|]; [|discriminate]. cbn [bind] in *.
    match type of E with bind ?x _ = _ => destruct x as [r|] end; [|discriminate]. cbn [bind] in E. injection E as <-.
    destruct (IH r eq_refl) as [o [Eo Fo]]. rewrite Eo. cbn [bind]. eexists. split; auto. constructor; auto.
    destruct (C27_label_partial (fun h => hl h g) s false) as [A B]. split; auto.
Qed.
Print Assumptions C67_label_partial.

(** A case: the mesh of C28_case (two cells, both split, one child of the first
    split again). *)
Notation ex_R := (mkR (got ex_mesh) 8 (fun _ _ => false) (fun _ _ => false)).
Example C67_case : exists m0, mesh_history (grid_points 0 2 0 1 2 1) (grid_faces 2 1) m0 (got ex_mesh) /\ nh (hp m0) = 8 /\
  submesh_rooted (cells (got ex_mesh)) None /\
  get_boundary_segments ex_R None None = Ok [[48; 49; 16; 17; 20; 21; 8; 24; 25; 40; 41; 44; 45]] /\
  get_boundary_vertices ex_R None None = Ok [5; 19; 4; 9; 3; 10; 0; 7; 12; 1; 17; 2; 18].
Proof.
  destruct (ex_history _ ex_ok) as [m0 H]. exists m0. split; [exact H|]. split; [rewrite (start_nh _ _ _ _ H); reflexivity|]. split; [exact Logic.I|].
  split; [vm_cast_no_check (@eq_refl (res (list (list nat))) (Ok [[48; 49; 16; 17; 20; 21; 8; 24; 25; 40; 41; 44; 45]]))|].
  vm_cast_no_check (@eq_refl (res (list nat)) (Ok [5; 19; 4; 9; 3; 10; 0; 7; 12; 1; 17; 2; 18])).
Qed.

(** * Dof vertices of quadrilateral meshes over histories of the mesh *)
From Coq Require Import List Arith Bool Lia QArith Qabs Lqa Permutation.
From Verif Require Import Tree Forest Geom SpecGeom Dcel SpecDcel Quad SpecForest TreeFacts ForestFacts QuadFacts QuadSplit QuadInv SpecQuad QuadNb
  DcelFacts QuadInit QuadUniq QuadStart QuadCoords QuadHist Prop_QuadMesh BalSets Prop_Balance Fem SpecFem ShapeFacts Prop_Shape Prop_Inherit Dof SpecDof DofFacts DofInv Dof2 SpecDof2
  SurfFacts Node2Facts VertNb Surf2 Dof2Facts Dof2Hist Prop_Dof2 Region RegionDof Problem2 SpecProblem2 Problem2Facts DofVert DofVert2 SpecDofVert2 DofVert2Facts.
Import ListNotations.
Open Scope nat_scope.
Open Scope nat_scope.

(** ** Histories *)
Lemma edit_here pts faces m0 m m' p : mesh_history pts faces m0 m -> edit m m' -> here m p -> here m' p.
Proof.
  intros H E Hp. pose proof (m_s _ _ _ (history_minv _ _ _ _ H)) as I. destruct E as [fl r m m' E|g q m|o q m].
  - destruct (split_sinv fl r m m' I E) as [_ [_ [_ [_ [_ [Hr _]]]]]]. apply Hr. left. exact Hp.
  - apply (relabel_here m _ p (rl_mark g q m)). exact Hp.
  - apply (relabel_here m _ p (rl_unmark o q m)). exact Hp.
Qed.
Lemma edit_history pts faces m0 m m' : mesh_history pts faces m0 m -> edit m m' -> mesh_history pts faces m0 m'.
Proof. intros [A [B [D F]]] C. split; auto. split; auto. split; auto. eapply ed_more; eauto. Qed.
Lemma position2_here pts faces m0 m e p k y : mesh_history pts faces m0 m -> position2 e m p k y -> here m p.
Proof. intros H P. destruct (position2_plane pts faces m (history_minv _ _ _ _ H) e p k y P) as [_ [Hp _]]. exact Hp. Qed.
Lemma vsound_mono2 (ok ok' : option nat -> path -> pt -> Prop) v : (forall d p x, ok d p x -> ok' d p x) -> vsound2 ok v -> vsound2 ok' v.
Proof. intros M [N S]. split; auto. intros d l Hl. destruct (S d l Hl) as [S1 S2]. split; auto. Qed.
Lemma located_dofs e m s s' d p x : SpecDof.keeps s s' -> located2 e m s d p x -> located2 e m s' d p x.
Proof. intros K [i [k [y [Ed [Hd [P Q]]]]]]. exists i, k, y. auto. Qed.
Lemma located_mesh pts faces m0 m m' e s d p x : mesh_history pts faces m0 m -> edit m m' -> located2 e m s d p x -> located2 e m' s d p x.
Proof.
  intros H E [i [k [y [Ed [Hd [P Q]]]]]]. pose proof (edit_here _ _ _ _ _ p H E (position2_here _ _ _ _ _ _ _ _ H P)) as Hp.
  destruct (position2_stays _ _ _ _ _ _ _ _ _ _ H (edit_history _ _ _ _ _ H E) Hp P) as [y' [P' Q']].
  exists i, k, y'. split; auto. split; auto. split; auto. eapply peq_t; eauto.
Qed.
Lemma vertex_dof2 (change : mesh2 -> mesh2 -> Prop) pts faces e m s v : (forall m m', change m m' -> edit m m') ->
  vertex_history2 change pts faces e m s v -> dof_history2 change pts faces e m s /\ vsound2 (located2 e m s) v.
Proof.
  intros CH H. induction H as [m0 m H|m s v sf s' v' H [IH1 IH2] R E|m s v m' H [IH1 IH2] C].
  - split; [eapply DH2_start; eauto|]. split; [constructor|]. intros d l [].
  - destruct (history_good change _ _ _ _ _ CH IH1) as [[m0 MH] _]. unfold distribute_dofs2 in E. cbn [fst snd] in E. destruct (Dof2.distribute2 e m sf s) as [s1|] eqn:E1; [|discriminate]. cbn [bind] in E.
    assert (IE : dof_history2 edit pts faces e m s).
    { clear - CH IH1. induction IH1 as [m0 m H|m s sf s' H IH R E|m s m' H IH C]; [eapply DH2_start|eapply DH2_distribute|eapply DH2_change]; eauto. }
    destruct (C48_distribute pts faces e m s sf IE) as [A B]. destruct (C30_is_balanced pts faces m0 m None MH) as [b [Eb Ib]].
    destruct b; [|exfalso; rewrite B in E1; [discriminate E1|intro Z; apply Ib in Z; discriminate Z]].
    destruct (A (proj1 Ib eq_refl)) as [s2 [E2 [K [_ F]]]]. assert (s2 = s1) by congruence. subst s2.
    assert (V : vsound2 (located2 e m s1) v) by (eapply vsound_mono2; [|exact IH2]; intros d p x; apply located_dofs; exact K).
    destruct (set_ok2 MH e s1 sf v (fun p Hp => proj1 (F p Hp)) V) as [v1 [E3 [V1 _]]]. rewrite E3 in E. cbn [bind] in E. injection E as <- <-.
    split; [|exact V1]. eapply DH2_distribute; eauto.
  - destruct (history_good change _ _ _ _ _ CH IH1) as [[m0 MH] _]. split; [eapply DH2_change; eauto|]. eapply vsound_mono2; [|exact IH2]. intros d p x. eapply located_mesh; eauto.
Qed.

Lemma known_vertex2 e m s v d : vsound2 (located2 e m s) v -> known2 v (Some d) ->
  exists x, get_dof_vertices2 None v [Some d] = Ok [x] /\ at_point e m s d x.
Proof.
  intros [_ S] K. destruct (dv_get_known2 _ _ K) as [l El]. pose proof (dv_get_in2 _ _ _ El) as Hl. destruct (S _ _ Hl) as [S1 S2].
  destruct l as [|[p x] l]; [congruence|]. destruct (S2 p x (or_introl eq_refl)) as [i [k [y [Ei [Hk [HX Q]]]]]]. injection Ei as <-.
  exists x. split; [|exists p, k, y; auto]. unfold get_dof_vertices2, dof_vertex2. cbn [fold_res]. rewrite El.
  destruct (length ((p, x) :: l) =? 1) eqn:B; [|reflexivity]. apply Nat.eqb_eq in B. destruct l; [reflexivity|discriminate].
Qed.
Lemma vertex_at2 e m s v d xs cells : vsound2 (located2 e m s) v -> dof_vertex2 cells v (Some d) = Ok xs ->
  forall x, In x xs -> at_point e m s d x.
Proof.
  intros [_ S] E. unfold dof_vertex2 in E. destruct (dv_get2 v (Some d)) as [l|] eqn:El; [|discriminate].
  pose proof (dv_get_in2 _ _ _ El) as Hl. destruct (S _ _ Hl) as [S1 S2].
  assert (X : forall p x, In (p, x) l -> at_point e m s d x).
  { intros p x Hp. destruct (S2 p x Hp) as [i [k [y [Ei [Hk [HX Q]]]]]]. injection Ei as <-. exists p, k, y. auto. }
  destruct (length l =? 1) eqn:B.
  - injection E as <-. intros x I. apply in_map_iff in I. destruct I as [[p y] [<- I]]. apply (X p). exact I.
  - destruct cells as [c|].
    + destruct (c (Some d)) as [p|]; [|injection E as <-; intros x []]. destruct (find _ l) as [[q y]|] eqn:Ef; [|discriminate]. injection E as <-.
      apply find_some in Ef. intros x [<-|[]]. apply (X q). apply Ef.
    + injection E as <-. destruct l as [|[p y] l]; [intros x []|]. intros x [<-|[]]. apply (X p). left. auto.
Qed.
Lemma vertex_one2 e m s v d xs : vsound2 (located2 e m s) v -> dof_vertex2 None v (Some d) = Ok xs -> exists x, xs = [x].
Proof.
  intros [_ S] E. unfold dof_vertex2 in E. destruct (dv_get2 v (Some d)) as [l|] eqn:El; [|discriminate].
  pose proof (dv_get_in2 _ _ _ El) as Hl. destruct (S _ _ Hl) as [S1 _]. destruct (length l =? 1) eqn:B.
  - apply Nat.eqb_eq in B. destruct l as [|[p x] [|]]; try discriminate B. injection E as <-. exists x. reflexivity.
  - destruct l as [|[p x] l]; [congruence|]. injection E as <-. exists x. reflexivity.
Qed.
Lemma vertices_at2 e m s v : vsound2 (located2 e m s) v -> forall ds xs, get_dof_vertices2 None v (map Some ds) = Ok xs -> Forall2 (at_point e m s) ds xs.
Proof.
  intros V. unfold get_dof_vertices2. assert (G : forall ds acc xs, fold_res (fun acc d => bind (dof_vertex2 None v d) (fun x => Ok (acc ++ x))) (map Some ds) acc = Ok xs -> exists ys, xs = acc ++ ys /\ Forall2 (at_point e m s) ds ys).
  { induction ds as [|d ds IH]; intros acc xs E; cbn [map fold_res] in E.
    - injection E as <-. exists []. rewrite app_nil_r. split; [reflexivity|constructor].
    - destruct (dof_vertex2 None v (Some d)) as [l|] eqn:E1; [|discriminate E]. cbn [bind] in E. destruct (vertex_one2 e m s v d l V E1) as [x ->].
      destruct (IH _ _ E) as [ys [-> F]]. exists (x :: ys). split; [rewrite <- app_assoc; reflexivity|]. constructor; [|exact F]. apply (vertex_at2 e m s v d [x] None V E1). left. reflexivity. }
  intros ds xs E. destruct (G ds [] xs E) as [ys [-> F]]. exact F.
Qed.
Lemma vertices_total2 v ds : (forall d, In d ds -> has_vertex2 v d) -> exists xs, get_dof_vertices2 None v (map Some ds) = Ok xs.
Proof.
  unfold get_dof_vertices2, has_vertex2. assert (G : forall ds acc, (forall d, In d ds -> exists x, get_dof_vertices2 None v [Some d] = Ok [x]) -> exists xs, fold_res (fun acc d => bind (dof_vertex2 None v d) (fun x => Ok (acc ++ x))) (map Some ds) acc = Ok xs).
  { clear ds. induction ds as [|d ds IH]; intros acc H; cbn [map fold_res]; [eauto|]. destruct (H d (or_introl eq_refl)) as [x E]. unfold get_dof_vertices2 in E. cbn [fold_res] in E.
    destruct (dof_vertex2 None v (Some d)) as [l|]; [|discriminate E]. cbn [bind]. apply IH. intros d' I. apply H. right. exact I. }
  intro H. apply G. exact H.
Qed.

(** * Histories of distributions on quadrilateral meshes (for C48-C50) *)
From Coq Require Import List Arith Bool Lia QArith Lqa.
From Verif Require Import Tree Forest Geom SpecGeom Dcel SpecDcel Quad SpecForest TreeFacts ForestFacts QuadFacts QuadSplit QuadInv SpecQuad QuadNb
  DcelFacts QuadInit QuadUniq QuadStart QuadCoords QuadHist Prop_QuadMesh Prop_Balance Fem SpecFem Prop_Inherit Dof SpecDof DofFacts DofInv Dof2 SpecDof2 SurfFacts Node2Facts VertNb Surf2 Dof2Facts.
Import ListNotations.
Open Scope nat_scope.

Lemma around_ext adj (h h' : path -> Prop) x y : (forall p, h p <-> h' p) -> around_corner adj h x y -> around_corner adj h' x y.
Proof.
  intros E. induction 1 as [|x y z A IH [S1 [S2 S3]]]; [apply ac_refl|]. eapply ac_step; [exact IH|]. split; [apply E; auto|]. split; [apply E; auto|exact S3].
Qed.

(** ** whatever happened to the mesh: equal dofs are at one point *)
Section weak.
Context (pts : list pt) (faces : list (list nat)) (m : mesh2) (e : elem).
Hypothesis QF : quad_faces faces.
Hypothesis M : minv pts faces m.
Hypothesis Hcont : torn e = false.
Local Notation n := (nd2 e).
Local Notation same := (same faces e).
Definition fwd (s : dofs) : Prop := forall p k q j d, slot s p k = Some d -> slot s q j = Some d -> same (p, k) (q, j).
Lemma fwd_copies s s' : fwd s -> copies n same s s' -> fwd s'.
Proof.
  intros H [_ [_ [_ C]]] p k q j d E1 E2.
  assert (X : forall p k, slot s' p k = Some d -> exists p1 k1, slot s p1 k1 = Some d /\ same (p1, k1) (p, k)).
  { intros p1 k1 E. destruct (C p1 k1 d E) as [F|[_ [p2 [k2 [F G]]]]]; [exists p1, k1; split; auto; apply same_refl|eauto]. }
  destruct (X _ _ E1) as [p1 [k1 [F1 G1]]]. destruct (X _ _ E2) as [p2 [k2 [F2 G2]]].
  eapply same_trans; [apply (same_sym pts faces m e QF M); exact G1|]. eapply same_trans; [eapply H; eauto|auto].
Qed.
Lemma fwd_fill p s s' : base_inv n s -> fwd s -> fill_ok n p s s' -> fwd s'.
Proof.
  intros BI H F p1 k1 p2 k2 d E1 E2.
  destruct (fill_cases _ _ _ _ _ _ _ BI F E1) as [[A1 L1]|[-> [K1 [A1 L1]]]];
  destruct (fill_cases _ _ _ _ _ _ _ BI F E2) as [[A2 L2]|[-> [K2 [A2 L2]]]]; try lia.
  - eapply H; eauto.
  - destruct F as [_ [_ [_ [_ [_ [_ F]]]]]]. rewrite (F k1 k2 d); auto. apply same_refl.
Qed.
Lemma process2_weak sf s p x : base_inv n s -> fwd s -> fget (cells m) p = Some x ->
  exists s', process2 e m sf s (p, x) = Ok s' /\ base_inv n s' /\ fwd s' /\ keeps' s s' /\ complete e s' p.
Proof.
  intros BI FW E. assert (W : wf n s) by apply BI.
  assert (Hp : here m p) by (apply here_fget; eauto). pose proof (here_ne m p Hp) as Np.
  unfold process2. cbn [fst snd]. pose proof (fill2_ok e s p W) as F. set (s1 := fill_dofs2 e p s) in *.
  pose proof (fill_keeps _ _ _ _ F) as K1. assert (C1 : complete e s1 p) by (intros k L; eapply fill_complete; eauto).
  assert (W1 : wf n s1) by apply F.
  destruct (share_neighbors2_ok pts faces m e QF M Hcont p s1 Hp W1 C1) as [s2 [E2 [CP _]]]. rewrite E2. cbn [bind].
  assert (B1 : base_inv n s1) by (eapply fill_base; eauto). assert (FW1 : fwd s1) by exact (fwd_fill p s s1 BI FW F).
  assert (K2 : keeps' s1 s2) by apply CP.
  assert (STEP : forall t, copies n same s1 t -> base_inv n t /\ fwd t /\ keeps' s t /\ complete e t p).
  { intros t Ct. assert (Kt : keeps' s1 t) by apply Ct. split; [eapply copies_base; eauto|]. split; [eapply fwd_copies; eauto|].
    split; [eapply keeps_trans; eauto|eapply complete_keeps; eauto]. }
  destruct (has_children x sf) eqn:HC; [|exists s2; split; auto].
  change (n_dofs D2 e) with n. set (s3 := share_children n (inherited (ref2 e)) p x s2). exists s3. split; auto.
  assert (W2 : wf n s2) by apply CP.
  apply STEP. eapply copies_trans; [apply same_trans|exact CP|]. apply children_copies; auto. intros i j k c Hc HI.
  assert (Hi : here m (p ++ [i])) by (apply here_fget; exists c; rewrite fget_snoc by auto; rewrite E, Hc; auto).
  destruct (here_fam pts faces m M p i Np Hi) as [_ [Li _]]. destruct (inh2_place e i j k Li HI) as [_ [_ Q]].
  unfold Dof2Facts.same. cbn [fst snd]. rewrite place_snoc by auto. apply glue_place. auto.
Qed.
End weak.

(** ** torn elements *)
Section torn2.
Context (pts : list pt) (faces : list (list nat)) (m : mesh2) (e : elem).
Hypothesis M : minv pts faces m.
Hypothesis T : torn e = true.
Local Notation tinv := (torn_inv (nd2 e) (inherited (ref2 e)) 4).
Lemma process2_torn sf s p x : tinv s -> fget (cells m) p = Some x ->
  exists s', process2 e m sf s (p, x) = Ok s' /\ tinv s' /\ keeps' s s' /\ complete e s' p.
Proof.
  intros IV E. unfold process2. cbn [fst snd]. unfold share_neighbors2. rewrite T. cbn [bind].
  pose proof (fill2_ok e s p (proj1 (proj1 IV))) as F. set (s1 := fill_dofs2 e p s) in *.
  pose proof (torn_fill _ _ _ p s s1 IV F) as I1. pose proof (fill_keeps _ _ _ _ F) as K1.
  assert (C1 : complete e s1 p) by (intros k L; eapply fill_complete; eauto).
  destruct (has_children x sf).
  - eexists. split; [reflexivity|]. change (n_dofs D2 e) with (nd2 e).
    assert (K2 : keeps' s1 (share_children (nd2 e) (inherited (ref2 e)) p x s1)).
    { intros q k d H. rewrite share_children_slot by apply I1. rewrite H. auto. }
    assert (NC : length (n_slots x) = 4).
    { assert (EI : info (cells m) p = Some (n_data x, length (n_slots x), m_regular (n_meta x))) by (unfold info; rewrite E; auto).
      apply (s_cell m (m_s _ _ _ M) _ _ _ _ EI). }
    split; [apply torn_share; auto; [apply (C36_torn_2d e T)|rewrite NC; auto]|]. split; [intros q k d H; apply K2; auto|].
    eapply complete_keeps; eauto.
  - eexists. split; [reflexivity|]. split; auto.
Qed.
End torn2.

(** ** distribution *)
Lemma fold_process e m sf (J : dofs -> Prop) :
  (forall s p x, J s -> fget (cells m) p = Some x -> exists s', process2 e m sf s (p, x) = Ok s' /\ J s' /\ keeps' s s' /\ complete e s' p) ->
  forall l s, (forall p x, In (p, x) l -> fget (cells m) p = Some x) -> J s ->
  exists s', fold_res (process2 e m sf) l s = Ok s' /\ J s' /\ keeps' s s' /\ (forall p x, In (p, x) l -> complete e s' p).
Proof.
  intros F. induction l as [|[p x] l IH]; intros s H Js.
  - exists s. split; auto. split; auto. split; [apply keeps_refl|intros p x []].
  - cbn [fold_res]. destruct (F s p x Js (H p x (or_introl eq_refl))) as [s1 [E1 [J1 [K1 C1]]]]. rewrite E1. cbn [bind].
    destruct (IH s1 (fun q y Hy => H q y (or_intror Hy)) J1) as [s2 [E2 [J2 [K2 C2]]]]. exists s2. split; auto. split; auto.
    split; [eapply keeps_trans; eauto|]. intros q y [Hy|Hy]; [|eauto]. injection Hy as <- <-. eapply complete_keeps; eauto.
Qed.
Definition good2 (pts : list pt) (faces : list (list nat)) (e : elem) (s : dofs) : Prop :=
  if torn e then torn_inv (nd2 e) (inherited (ref2 e)) 4 s else base_inv (nd2 e) s /\ fwd faces e s.
Lemma good2_base pts faces e s : good2 pts faces e s -> base_inv (nd2 e) s.
Proof. unfold good2. destruct (torn e); intros H; apply H. Qed.
Lemma distribute2_good pts faces m0 m e sf s : mesh_history pts faces m0 m -> good2 pts faces e s ->
  is_balanced None m = Ok true ->
  exists s', distribute2 e m sf s = Ok s' /\ good2 pts faces e s' /\ keeps' s s' /\ (forall p, in_sub (cells m) sf p -> complete e s' p).
Proof.
  intros H G BL. pose proof (history_minv _ _ _ _ H) as M. destruct H as [_ [QF _]]. unfold distribute2. rewrite BL. cbn [bind].
  destruct (fold_process e m sf (good2 pts faces e)) with (l := ftraverse (cells m) sf BreadthFirst) (s := s) as [s' [E [J [K C]]]]; auto.
  - unfold good2. destruct (torn e) eqn:T; intros t p x Jt Ex.
    + apply (process2_torn pts faces m e M T); auto.
    + destruct Jt as [J1 J2]. destruct (process2_weak pts faces m e QF M T sf t p x J1 J2 Ex) as [t' [A1 [A2 [A3 [A4 A5]]]]]. exists t'. auto.
  - intros p x Hp. apply in_ftraverse in Hp. tauto.
  - exists s'. split; auto. split; auto. split; auto. intros p [x [Ex Fx]]. apply (C p x). apply in_ftraverse. auto.
Qed.
Lemma history_good (change : mesh2 -> mesh2 -> Prop) pts faces e m s : (forall m m', change m m' -> edit m m') -> dof_history2 change pts faces e m s ->
  (exists m0, mesh_history pts faces m0 m) /\ good2 pts faces e s.
Proof.
  intros CH. induction 1 as [m0 m H|m s sf s' H [[m0 IH1] IH2] R E|m s m' H [[m0 IH1] IH2] C].
  - split; [eauto|]. unfold good2. destruct (torn e); [apply torn_empty|]. split; [apply base_empty|intros p k q j d E; discriminate].
  - split; [eauto|]. unfold distribute2 in E. destruct (is_balanced None m) as [[|]|] eqn:BL; try discriminate.
    destruct (distribute2_good pts faces m0 m e sf s IH1 IH2 BL) as [s2 [E2 [G _]]]. unfold distribute2 in E2. rewrite BL in E2. congruence.
  - split; auto. exists m0. destruct IH1 as [A [B [D F]]]. split; auto. split; auto. split; auto. eapply ed_more; eauto.
Qed.
Lemma relabel_edit m m' : relabel m m' -> edit m m'.
Proof. intros [g p m1|o p m1]; constructor. Qed.
Lemma relabel_here m m' p : relabel m m' -> here m' p <-> here m p.
Proof.
  intros [g q m1|o q m1]; apply here_ext; cbn [cells]; [apply mark_info|apply unmark_info].
Qed.
(** ** without refinement in between *)
Lemma history_inv pts faces e m s : torn e = false -> dof_history2 relabel pts faces e m s ->
  exists P, inv faces m e s P.
Proof.
  intros T. induction 1 as [m0 m H|m s sf s' H IH R E|m s m' H [P IH] C].
  - exists (fun _ => False). apply inv_empty.
  - destruct IH as [P IH]. destruct (history_good relabel pts faces e m s relabel_edit H) as [[m0 MH] _].
    pose proof (history_minv _ _ _ _ MH) as M. destruct MH as [_ [QF _]].
    unfold distribute2 in E. destruct (is_balanced None m) as [[|]|] eqn:BL; try discriminate.
    destruct (distribute2_ok pts faces m e QF M T sf s P R IH BL) as [s2 [P' [E2 [I2 _]]]]. unfold distribute2 in E2. rewrite BL in E2. exists P'. congruence.
  - exists P. assert (EH := fun p => relabel_here m m' p C). destruct IH as [A1 [A2 [A3 [A4 A5]]]]. split; auto. split; auto. split; [|auto].
    intros p Hp. destruct (A3 p Hp) as [B1 [B2 [B3 B4]]]. split; [apply EH; auto|]. split; auto. split.
    + intros c L q d O. apply (B3 c L). eapply around_ext; [|exact O]. auto.
    + intros a L q b i Hq N Li. apply (B4 a L q b i); auto. apply EH; auto.
Qed.

(** ** positions in the plane *)
Lemma peq_qmap q q' x y : qeq q q' -> peq x y -> peq (qmap q (fst x) (snd x)) (qmap q' (fst y) (snd y)).
Proof.
  destruct q as [[[[x0 y0] [x1 y1]] [x2 y2]] [x3 y3]], q' as [[[[x0' y0'] [x1' y1']] [x2' y2']] [x3' y3']].
  unfold qeq, peq, qmap. cbn [fst snd]. intros [[A1 A2] [[A3 A4] [[A5 A6] [A7 A8]]]] [E1 E2]. rewrite A1, A2, A3, A4, A5, A6, A7, A8, E1, E2. split; reflexivity.
Qed.
Lemma qmap_child i q x : i < 4 -> peq (qmap (qchild i q) (fst x) (snd x)) (qmap q (fst (quarter i x)) (snd (quarter i x))).
Proof.
  intro L. destruct q as [[[[x0 y0] [x1 y1]] [x2 y2]] [x3 y3]], x as [s t]. unfold peq.
  do 4 (destruct i as [|i]; [unfold quarter, qchild, corner; cbn; split; field|]). lia.
Qed.
Section plane.
Context (pts : list pt) (faces : list (list nat)) (m : mesh2).
Hypothesis QF : quad_faces faces.
Hypothesis M : minv pts faces m.
Definition plane (a : spt) : pt := qmap (cquad m [fst a]) (fst (snd a)) (snd (snd a)).
Lemma plane_place p : forall x, here m p -> peq (qmap (cquad m p) (fst x) (snd x)) (plane (place p x)).
Proof.
  induction p as [|i p IH] using rev_ind; intros x H; [destruct (here_ne m _ H); auto|]. destruct p as [|r p].
  - cbn [app]. unfold plane, place. cbn [hd tl in_root fst snd app]. apply peq_r.
  - destruct (here_fam pts faces m M (r :: p) i) as [Hp [Li _]]; auto; [discriminate|].
    rewrite place_snoc by discriminate. eapply peq_t; [|apply IH; auto].
    eapply peq_t; [apply peq_qmap; [apply (m_kid _ _ _ M); auto; discriminate|apply peq_r]|]. apply qmap_child; auto.
Qed.
Lemma root_coords r k : r < length faces -> k < 4 -> B (hp m) (side m [r] k) = fvert faces r k.
Proof. intros L Lk. destruct (m_base _ _ _ M r k L Lk) as [-> ->]. auto. Qed.
Lemma qmap_side r k t : r < length faces -> k < 4 ->
  peq (plane (r, side_pt k t))
    ((1 - t) * fst (vx (hp m) (fvert faces r k)) + t * fst (vx (hp m) (fvert faces r ((k + 1) mod 4))),
     (1 - t) * snd (vx (hp m) (fvert faces r k)) + t * snd (vx (hp m) (fvert faces r ((k + 1) mod 4))))%Q.
Proof.
  intros L Lk. unfold plane, cquad. cbn [fst snd]. rewrite !root_coords by lia. unfold peq.
  do 4 (destruct k as [|k]; [unfold side_pt, corner, qmap; cbn [nth fst snd Nat.add Nat.modulo Nat.divmod Nat.sub]; split; ring|]). lia.
Qed.
Lemma plane_glued a b : glued (face_adj faces) a b -> peq (plane a) (plane b).
Proof.
  induction 1 as [r x y E|r k r' j t x y A Ht E1 E2|a b c _ IH1 _ IH2].
  - unfold plane. cbn [fst snd]. apply peq_qmap; auto. apply qeq_refl.
  - destruct (adj_len _ _ _ _ _ A) as [L L']. destruct (adj_lt pts faces m QF M _ _ _ _ A) as [Lk Lj]. destruct (adj_vert pts faces m QF M _ _ _ _ A) as [V1 V2].
    assert (P1 : peq (plane (r, x)) (plane (r, side_pt k t))) by (unfold plane; cbn [fst snd]; apply peq_qmap; auto; apply qeq_refl).
    assert (P2 : peq (plane (r', y)) (plane (r', side_pt j (1 - t)))) by (unfold plane; cbn [fst snd]; apply peq_qmap; auto; apply qeq_refl).
    eapply peq_t; [exact P1|]. eapply peq_t; [|apply peq_s; exact P2].
    eapply peq_t; [apply qmap_side; auto|]. eapply peq_t; [|apply peq_s; apply qmap_side; auto]. rewrite V1, V2. unfold peq. cbn [fst snd]. split; ring.
  - eapply peq_t; eauto.
Qed.
Lemma position2_plane e p k z : position2 e m p k z -> k < nd2 e /\ here m p /\ peq z (plane (place p (node2 e k))).
Proof.
  intros [c [x [v0 [v1 [v2 [v3 [Ec [Ex [Ev ->]]]]]]]]]. assert (Hp : here m p) by (apply here_fget; eauto).
  destruct (nodes2_at e k x Ex) as [Lk ->]. split; auto. split; auto.
  assert (Q : cquad m p = (v0, v1, v2, v3)) by (rewrite <- (coords_quad m p c (m_s _ _ _ M) Ec), Ev; reflexivity).
  rewrite <- Q. apply plane_place; auto.
Qed.
End plane.

(** * Dof vertices of quadrilateral meshes over histories *)
From Coq Require Import List Arith Bool Lia QArith Qabs Lqa Permutation.
From Verif Require Import Tree Forest Geom SpecGeom Dcel SpecDcel Quad SpecForest TreeFacts ForestFacts QuadFacts QuadSplit QuadInv SpecQuad QuadNb
  DcelFacts QuadInit QuadUniq QuadStart QuadCoords QuadHist Prop_QuadMesh BalSets Prop_Balance Fem SpecFem ShapeFacts Prop_Shape Prop_Inherit Dof SpecDof DofFacts DofInv Dof2 SpecDof2
  SurfFacts Node2Facts VertNb Surf2 Dof2Facts Dof2Hist Prop_Dof2 Region RegionDof Problem2 SpecProblem2 Problem2Facts DofVert DofVert2 SpecDofVert2.
Import ListNotations.
Open Scope nat_scope.

Lemma nodup_app2 {X} (l m : list X) : NoDup l -> NoDup m -> (forall x, In x l -> ~ In x m) -> NoDup (l ++ m).
Proof.
  intros H. induction H as [|x l N H IH]; intros Hm D; cbn; [exact Hm|]. constructor; [|apply IH; auto; intros y Hy; apply D; right; exact Hy].
  intros C. apply in_app_iff in C. destruct C as [C|C]; [exact (N C)|exact (D x (or_introl eq_refl) C)].
Qed.
Definition known2 (v : dverts2) (d : option nat) : Prop := In d (map fst v).
Lemma dv_get_in2 v d l : dv_get2 v d = Some l -> In (d, l) v.
Proof.
  unfold dv_get2. destruct (find _ v) as [[d' l']|] eqn:E; [|discriminate]. cbn. intro X. injection X as ->.
  apply find_some in E. destruct E as [H1 H2]. cbn in H2. destruct (slot_dec d' d); [|discriminate]. subst. auto.
Qed.
Lemma dv_get_none2 v d : dv_get2 v d = None <-> ~ known2 v d.
Proof.
  unfold dv_get2, known2. split.
  - destruct (find _ v) eqn:E; [discriminate|]. intros _ C. apply in_map_iff in C. destruct C as [[d' l] [<- H]].
    pose proof (find_none _ _ E _ H) as X. cbn in X. destruct (slot_dec d' d'); congruence.
  - intro H. destruct (find _ v) as [[d' l]|] eqn:E; auto. exfalso. apply find_some in E. destruct E as [H1 H2]. cbn in H2.
    destruct (slot_dec d' d); [|discriminate]. apply H. subst. apply in_map_iff. exists (d, l). auto.
Qed.
Lemma dv_get_known2 v d : known2 v d -> exists l, dv_get2 v d = Some l.
Proof. intro H. destruct (dv_get2 v d) as [l|] eqn:E; [eauto|]. apply dv_get_none2 in E. tauto. Qed.
Lemma dv_set_keys2 v d l : map fst (dv_set2 v d l) = map fst v.
Proof. unfold dv_set2. rewrite map_map. apply map_ext. intros [d' l']. cbn. destruct (slot_dec d' d); auto. Qed.

(** what is recorded: [ok d p x] says that the dof [d] may have the vertex [x] in the cell [p] *)
Definition vsound2 (ok : option nat -> path -> pt -> Prop) (v : dverts2) : Prop :=
  NoDup (map fst v) /\ forall d l, In (d, l) v -> l <> [] /\ forall p x, In (p, x) l -> ok d p x.
Lemma cell_set_in2 p x l q y : In (q, y) (cell_set2 p x l) -> In (q, y) l \/ (q, y) = (p, x).
Proof.
  unfold cell_set2. destruct (existsb _ l).
  - intro H. apply in_map_iff in H. destruct H as [c [E H]]. destruct (path_dec (fst c) p); [right; auto|left; congruence].
  - intro H. apply in_app_iff in H. destruct H as [H|[H|[]]]; auto.
Qed.
Lemma cell_set_ne2 p x l : cell_set2 p x l <> [] .
Proof.
  unfold cell_set2. destruct (existsb _ l) eqn:E; [|destruct l; discriminate].
  destruct l; [discriminate|]. cbn. discriminate.
Qed.
Lemma record_ok2 (ok : option nat -> path -> pt -> Prop) p v dx : ok (fst dx) p (snd dx) -> vsound2 ok v ->
  vsound2 ok (record_vertex2 p v dx) /\ known2 (record_vertex2 p v dx) (fst dx) /\ forall d, known2 v d -> known2 (record_vertex2 p v dx) d.
Proof.
  intros H [N S]. unfold record_vertex2, known2. destruct dx as [d x]. cbn [fst snd] in *. destruct (dv_get2 v d) as [l|] eqn:E.
  - assert (K : known2 v d) by (apply dv_get_in2 in E; apply in_map_iff; exists (d, l); auto).
    destruct (existsb _ l).
    + rewrite dv_set_keys2. split; [|auto]. split; [rewrite dv_set_keys2; auto|]. intros d' l' H'. unfold dv_set2 in H'. apply in_map_iff in H'.
      destruct H' as [[d2 l2] [E2 H2]]. cbn [fst] in E2. destruct (slot_dec d2 d) as [->|Ne].
      * injection E2 as <- <-. split; [apply cell_set_ne2|]. intros q y Hq. apply cell_set_in2 in Hq. destruct Hq as [Hq|Hq].
        -- apply (S d l); auto. apply dv_get_in2. auto.
        -- injection Hq as -> ->. auto.
      * injection E2 as <- <-. apply (S d2 l2); auto.
    + split; [split; auto|]. split; auto.
  - apply dv_get_none2 in E. split; [|rewrite map_app; split; [apply in_app_iff; cbn; auto|intros d' H'; apply in_app_iff; auto]].
    split.
    + rewrite map_app. apply nodup_app2; auto; [cbn; constructor; [intros []|constructor]|]. intros y Hy [<-|[]]. auto.
    + intros d' l' H'. apply in_app_iff in H'. destruct H' as [H'|[H'|[]]]; [apply S; auto|]. injection H' as <- <-.
      split; [discriminate|]. intros q y [Hq|[]]. injection Hq as <- <-. auto.
Qed.
Lemma records_ok2 (ok : option nat -> path -> pt -> Prop) p : forall dxs v, (forall dx, In dx dxs -> ok (fst dx) p (snd dx)) -> vsound2 ok v ->
  vsound2 ok (fold_left (record_vertex2 p) dxs v) /\ (forall dx, In dx dxs -> known2 (fold_left (record_vertex2 p) dxs v) (fst dx)) /\
  forall d, known2 v d -> known2 (fold_left (record_vertex2 p) dxs v) d.
Proof.
  induction dxs as [|dx dxs IH]; intros v H V; cbn [fold_left]; [split; auto; split; [intros dx []|auto]|].
  destruct (record_ok2 ok p v dx (H dx (or_introl eq_refl)) V) as [V1 [K1 M1]].
  destruct (IH (record_vertex2 p v dx)) as [V2 [K2 M2]]; auto; [intros y Hy; apply H; right; auto|].
  split; auto. split; [intros y [<-|Hy]; auto|auto].
Qed.


(** the dof [d] is in the cell [p], at the point [z] *)
Definition located2 (e : elem) (m : mesh2) (s : dofs) (d : option nat) (p : path) (z : pt) : Prop :=
  exists i k y, d = Some i /\ dof_at s p k i /\ position2 e m p k y /\ peq z y.
Lemma combine_slot {X Y} (l : list X) : forall (xs : list Y) k o, nth_error l k = Some o -> k < length xs -> exists x, nth_error (combine l xs) k = Some (o, x).
Proof.
  induction l as [|o' l IH]; intros xs k o Hk Lr; [destruct k; discriminate Hk|]. destruct xs as [|x xs]; [cbn in Lr; lia|].
  destruct k as [|k]; cbn in *; [injection Hk as ->; eauto|]. apply IH; [exact Hk|lia].
Qed.
Section Visit.
Context {pts : list pt} {faces : list (list nat)} {m0 m : mesh2} (H : mesh_history pts faces m0 m) (e : elem) (s : dofs).
Lemma node_position p k x : is_cell m p -> nth_error (reference_nodes2 e) k = Some x -> position2 e m p k (qmap (cell_quad m p) (fst x) (snd x)).
Proof.
  intros C Ex. destruct (shape_total H p C) as [q S]. pose proof (shape_quad p q S) as <-. destruct S as [c [v0 [v1 [v2 [v3 [E [EC ->]]]]]]]. exists c, x, v0, v1, v2, v3. auto.
Qed.
Lemma visit_ok2 v c : fget (cells m) (fst c) = Some (snd c) -> filled (n_dofs D2 e) s (fst c) -> vsound2 (located2 e m s) v ->
  exists v', visit_cell2 e m s v c = Ok v' /\ vsound2 (located2 e m s) v' /\ (forall d, known2 v d -> known2 v' d) /\
    forall k d, dof_at s (fst c) k d -> known2 v' (Some d).
Proof.
  intros E [l [El [Ll Hl]]] V. destruct c as [p n]. cbn [fst snd] in *. unfold visit_cell2. cbn [fst snd]. rewrite El.
  destruct (forallb _ l) eqn:B.
  - exists v. split; auto. split; auto. split; auto. intros k d [l' [El' Hk]]. rewrite El in El'. injection El' as <-.
    apply nth_error_In in Hk. rewrite forallb_forall in B. specialize (B _ Hk). destruct (dv_get2 v (Some d)) as [l'|] eqn:G; [|discriminate].
    apply dv_get_in2 in G. apply in_map_iff. exists (Some d, l'). auto.
  - set (g := fun x : pt => qmap (cell_quad m p) (fst x) (snd x)). set (dxs := combine l _). assert (D : forall k o x, nth_error dxs k = Some (o, x) -> nth_error l k = Some o /\ exists r, nth_error (reference_nodes2 e) k = Some r /\ x = g r).
    { intros k o x Hx. unfold dxs in Hx. clear - Hx. revert l k Hx. induction (reference_nodes2 e) as [|r rs IH]; intros [|o' l] k Hx; try (destruct k; discriminate).
      destruct k as [|k]; cbn in Hx; [injection Hx as -> <-; cbn; eauto|]. apply IH in Hx. auto. }
    destruct (records_ok2 (located2 e m s) p dxs v) as [V' [K' M']]; auto.
    + intros [o x] Hx. apply In_nth_error in Hx. destruct Hx as [k Hk]. destruct (D _ _ _ Hk) as [H1 [r [H2 ->]]]. cbn [fst snd].
      assert (Lk : k < n_dofs D2 e) by (rewrite <- Ll; apply nth_error_Some; congruence).
      destruct (Hl k Lk) as [d [l' [El' Hd]]]. rewrite El in El'. injection El' as <-. rewrite H1 in Hd. injection Hd as ->.
      exists d, k, (g r). split; [reflexivity|]. split; [exists l; split; [exact El|exact H1]|]. split; [exact (node_position p k r (ex_intro _ n E) H2)|apply peq_r].
    + eexists. split; [reflexivity|]. split; auto. split; auto. intros k d [l' [El' Hk]]. rewrite El in El'. injection El' as <-.
      assert (Lk : k < n_dofs D2 e) by (rewrite <- Ll; apply nth_error_Some; congruence).
      destruct (combine_slot l (map g (reference_nodes2 e)) k (Some d) Hk ltac:(rewrite map_length, nodes2_len; exact Lk)) as [x Hx].
      apply nth_error_In in Hx. apply (K' _ Hx).
Qed.
Lemma visits_ok2 : forall cs v, (forall c, In c cs -> fget (cells m) (fst c) = Some (snd c) /\ filled (n_dofs D2 e) s (fst c)) -> vsound2 (located2 e m s) v ->
  exists v', fold_res (visit_cell2 e m s) cs v = Ok v' /\ vsound2 (located2 e m s) v' /\ (forall d, known2 v d -> known2 v' d) /\
    forall c k d, In c cs -> dof_at s (fst c) k d -> known2 v' (Some d).
Proof.
  induction cs as [|c cs IH]; intros v Hc V; cbn [fold_res].
  - exists v. split; auto. split; auto. split; auto. intros c k d [].
  - destruct (Hc c (or_introl eq_refl)) as [E F]. destruct (visit_ok2 v c E F V) as [v1 [E1 [V1 [M1 K1]]]]. rewrite E1. cbn [bind].
    destruct (IH v1) as [v2 [E2 [V2 [M2 K2]]]]; auto; [intros y Hy; apply Hc; right; auto|]. exists v2. split; auto. split; auto. split; auto.
    intros y k d [<-|Hy] Hd; eauto.
Qed.
Lemma count_ok2 sf : (forall p, sub_leaf (cells m) sf p -> gd s p <> None) -> exists k, count_dofs2 m sf s = Ok k /\
  forall p es o, sub_leaf (cells m) sf p -> gd s p = Some es -> In o es -> 0 < k.
Proof.
  intro Hp0. unfold count_dofs2.
  assert (G : forall ps acc, (forall p, In p ps -> gd s p <> None) ->
    exists l, fold_res (fun acc p => match gd s p with Some l => Ok (acc ++ l) | None => Err TypeError end) ps acc = Ok l /\
      forall p es o, In p ps -> gd s p = Some es -> In o es \/ In o acc -> In o l).
  { induction ps as [|p ps IH]; intros acc Hp; cbn [fold_res]; [exists acc; split; [reflexivity|intros p es o []]|].
    destruct (gd s p) as [es|] eqn:E; [|exfalso; apply (Hp p); cbn; auto]. cbn [bind].
    destruct (IH (acc ++ es)) as [l [El Hl]]; [intros q Hq; apply Hp; right; auto|]. exists l. split; auto.
    assert (MONO : forall o, In o (acc ++ es) -> In o l).
    { destruct ps as [|q ps]; [cbn in El; injection El as <-; auto|]. intros o I. destruct (gd s q) as [eq|] eqn:Eq; [|exfalso; apply (Hp q); cbn; auto]. apply (Hl q eq o); [left; reflexivity|exact Eq|right; exact I]. }
    intros q eq o [<-|Hq] Eq I; [|apply (Hl q eq o Hq Eq); destruct I; [left|right; apply in_or_app; left]; assumption].
    apply MONO, in_or_app. rewrite E in Eq. injection Eq as <-. tauto. }
  destruct (G (map fst (fget_leaves (cells m) None sf BreadthFirst)) []) as [l [El Hl]].
  { intros p Hp. apply in_map_iff in Hp. destruct Hp as [[q n] [<- Hq]]. apply in_fget_leaves in Hq. apply Hp0. exists n. tauto. }
  rewrite El. cbn [bind]. exists (length (nodup slot_dec l)). split; auto. intros p es o [n [En Ln]] Ee Io.
  assert (I : In o (nodup slot_dec l)). { apply nodup_In. apply (Hl p es o); [|exact Ee|left; exact Io]. apply in_map_iff. exists (p, n). split; auto. apply in_fget_leaves. cbn. auto. }
  destruct (nodup slot_dec l); [destruct I|cbn; lia].
Qed.
Lemma set_ok2 sf v : (forall p, in_sub (cells m) sf p -> filled (n_dofs D2 e) s p) -> vsound2 (located2 e m s) v ->
  exists v', set_dof_vertices2 e m sf s v = Ok v' /\ vsound2 (located2 e m s) v' /\ (forall d, known2 v d -> known2 v' d) /\
   (v = [] -> forall p k d, sub_leaf (cells m) sf p -> dof_at s p k d -> known2 v' (Some d)).
Proof.
  intros F V. unfold set_dof_vertices2.
  assert (FL : forall p, sub_leaf (cells m) sf p -> gd s p <> None) by (intros p [n [En [Fn _]]]; destruct (F p) as [l [El _]]; [exists n; auto|]; congruence).
  destruct (count_ok2 sf FL) as [k [E PK]]. rewrite E. cbn [bind]. destruct (k <=? length v) eqn:B.
  - exists v. split; auto. split; auto. split; auto. intros -> p j d L [l [El Hj]]. exfalso. apply Nat.leb_le in B. cbn in B. pose proof (PK p l (Some d) L El (nth_error_In _ _ Hj)). lia.
  - destruct (visits_ok2 (ftraverse (cells m) sf DepthFirst) v) as [v' [E' [V' [M' K']]]]; auto.
    + intros [p n] Hp. apply in_ftraverse in Hp. cbn [fst snd]. split; [apply Hp|]. apply F. exists n. auto.
    + exists v'. split; auto. split; auto. split; auto. intros _ p j d [n [En [Fn _]]] Hd. apply (K' (p, n) j d); auto. apply in_ftraverse. auto.
Qed.
End Visit.

(** positions stay *)
Lemma root_vertices pts faces m0 m r : mesh_history pts faces m0 m -> here m [r] -> cquad m [r] = face_quad pts (nth r faces []).
Proof.
  intros H Hp. pose proof (history_minv _ _ _ _ H) as M. apply (m_roots _ _ _ M) in Hp. destruct (nth_error faces r) as [fc|] eqn:Ei; [|apply nth_error_None in Ei; lia].
  destruct H as [PM [QF _]]. destruct (qf_nth faces r QF Hp) as [_ L4]. rewrite (nth_error_nth _ _ [] Ei) in *.
  unfold cquad, face_quad. destruct PM as [_ [PV _]]. rewrite Forall_forall in PV. specialize (PV fc (nth_error_In _ _ Ei)). rewrite Forall_forall in PV.
  assert (Q : forall k, (k < 4)%nat -> vx (hp m) (hbase (he (hp m) (side m [r] k))) = nth (nth k fc 0%nat) pts (0, 0)%Q).
  { intros k Lk. destruct (m_base _ _ _ M r k Hp Lk) as [-> ->]. unfold fvert. rewrite (nth_error_nth _ _ [] Ei). apply (m_vx _ _ _ M). apply PV. apply nth_In. lia. }
  rewrite !Q by lia. reflexivity.
Qed.
Lemma position2_stays pts faces m0 m m0' m' e p k y : mesh_history pts faces m0 m -> mesh_history pts faces m0' m' -> here m' p ->
  position2 e m p k y -> exists y', position2 e m' p k y' /\ peq y y'.
Proof.
  intros H H' Hp' P. pose proof (history_minv _ _ _ _ H) as M. pose proof (history_minv _ _ _ _ H') as M'. assert (QF : quad_faces faces) by (destruct H as [_ [QF _]]; exact QF).
  destruct (position2_plane pts faces m M e p k y P) as [Lk [Hp E]].
  assert (ex2 : exists y', position2 e m' p k y').
  { eexists. apply (node_position H' e p k (node2 e k)); [apply here_fget in Hp'; exact Hp'|apply Node2Facts.nodes2_nth; exact Lk]. }
  destruct ex2 as [y' P']. exists y'. split; [exact P'|]. destruct (position2_plane pts faces m' M' e p k y' P') as [_ [_ E']].
  eapply peq_t; [exact E|]. eapply peq_t; [|apply peq_s; exact E'].
  assert (PL : plane m (place p (node2 e k)) = plane m' (place p (node2 e k))).
  { assert (Q : cquad m [fst (place p (node2 e k))] = cquad m' [fst (place p (node2 e k))]).
    { rewrite (root_vertices pts faces m0 m), (root_vertices pts faces m0' m'); auto.
      - destruct p as [|r p]; [destruct (here_ne m' _ Hp'); auto|]. apply (here_prefix m' [r] p); [discriminate|exact Hp'].
      - destruct p as [|r p]; [destruct (here_ne m _ Hp); auto|]. apply (here_prefix m [r] p); [discriminate|exact Hp]. }
    unfold plane. rewrite Q. reflexivity. }
  rewrite PL. apply peq_r.
Qed.


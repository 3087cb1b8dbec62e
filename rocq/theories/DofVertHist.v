(** Dof vertices over histories *)
From Coq Require Import List Arith Bool Lia QArith Qabs Lqa Permutation.
Import ListNotations.
From Verif Require Import Tree Forest SpecForest TreeFacts ForestFacts LabelFacts RootFacts History PlaceFacts
  RefineFacts RefineFacts2 Geom GenFacts SpecGeom IntervalFacts LeafFacts Mesh1D Mesh1DFacts Prop_1D Fem SpecFem ShapeFacts
  Prop_Inherit Dof SpecDof DofFacts DofInv GrowFacts Dof1DFacts Dof1DHist Prop_Dof1D DofVert SpecDofVert DofVertFacts.
Open Scope nat_scope.

Definition known (v : dverts) (d : option nat) : Prop := In d (map fst v).
Lemma dv_get_in v d l : dv_get v d = Some l -> In (d, l) v.
Proof.
  unfold dv_get. destruct (find _ v) as [[d' l']|] eqn:E; [|discriminate]. cbn. intro X. injection X as ->.
  apply find_some in E. destruct E as [H1 H2]. cbn in H2. destruct (slot_dec d' d); [|discriminate]. subst. auto.
Qed.
Lemma dv_get_none v d : dv_get v d = None <-> ~ known v d.
Proof.
  unfold dv_get, known. split.
  - destruct (find _ v) eqn:E; [discriminate|]. intros _ C. apply in_map_iff in C. destruct C as [[d' l] [<- H]].
    pose proof (find_none _ _ E _ H) as X. cbn in X. destruct (slot_dec d' d'); congruence.
  - intro H. destruct (find _ v) as [[d' l]|] eqn:E; auto. exfalso. apply find_some in E. destruct E as [H1 H2]. cbn in H2.
    destruct (slot_dec d' d); [|discriminate]. apply H. subst. apply in_map_iff. exists (d, l). auto.
Qed.
Lemma dv_get_known v d : known v d -> exists l, dv_get v d = Some l.
Proof. intro H. destruct (dv_get v d) as [l|] eqn:E; [eauto|]. apply dv_get_none in E. tauto. Qed.
Lemma dv_set_keys v d l : map fst (dv_set v d l) = map fst v.
Proof. unfold dv_set. rewrite map_map. apply map_ext. intros [d' l']. cbn. destruct (slot_dec d' d); auto. Qed.

(** what is recorded: [ok d p x] says that the dof [d] may have the vertex [x] in the cell [p] *)
Definition vsound (ok : option nat -> path -> Q -> Prop) (v : dverts) : Prop :=
  NoDup (map fst v) /\ forall d l, In (d, l) v -> l <> [] /\ forall p x, In (p, x) l -> ok d p x.
Lemma cell_set_in p x l q y : In (q, y) (cell_set p x l) -> In (q, y) l \/ (q, y) = (p, x).
Proof.
  unfold cell_set. destruct (existsb _ l).
  - intro H. apply in_map_iff in H. destruct H as [c [E H]]. destruct (path_dec (fst c) p); [right; auto|left; congruence].
  - intro H. apply in_app_iff in H. destruct H as [H|[H|[]]]; auto.
Qed.
Lemma cell_set_ne p x l : cell_set p x l <> [] .
Proof.
  unfold cell_set. destruct (existsb _ l) eqn:E; [|destruct l; discriminate].
  destruct l; [discriminate|]. cbn. discriminate.
Qed.
Lemma record_ok (ok : option nat -> path -> Q -> Prop) p v dx : ok (fst dx) p (snd dx) -> vsound ok v ->
  vsound ok (record_vertex p v dx) /\ known (record_vertex p v dx) (fst dx) /\ forall d, known v d -> known (record_vertex p v dx) d.
Proof.
  intros H [N S]. unfold record_vertex, known. destruct dx as [d x]. cbn [fst snd] in *. destruct (dv_get v d) as [l|] eqn:E.
  - assert (K : known v d) by (apply dv_get_in in E; apply in_map_iff; exists (d, l); auto).
    destruct (existsb _ l).
    + rewrite dv_set_keys. split; [|auto]. split; [rewrite dv_set_keys; auto|]. intros d' l' H'. unfold dv_set in H'. apply in_map_iff in H'.
      destruct H' as [[d2 l2] [E2 H2]]. cbn [fst] in E2. destruct (slot_dec d2 d) as [->|Ne].
      * injection E2 as <- <-. split; [apply cell_set_ne|]. intros q y Hq. apply cell_set_in in Hq. destruct Hq as [Hq|Hq].
        -- apply (S d l); auto. apply dv_get_in. auto.
        -- injection Hq as -> ->. auto.
      * injection E2 as <- <-. apply (S d2 l2); auto.
    + split; [split; auto|]. split; auto.
  - apply dv_get_none in E. split; [|rewrite map_app; split; [apply in_app_iff; cbn; auto|intros d' H'; apply in_app_iff; auto]].
    split.
    + rewrite map_app. apply nodup_app'; auto; [cbn; constructor; [intros []|constructor]|]. intros y Hy [<-|[]]. auto.
    + intros d' l' H'. apply in_app_iff in H'. destruct H' as [H'|[H'|[]]]; [apply S; auto|]. injection H' as <- <-.
      split; [discriminate|]. intros q y [Hq|[]]. injection Hq as <- <-. auto.
Qed.
Lemma records_ok (ok : option nat -> path -> Q -> Prop) p : forall dxs v, (forall dx, In dx dxs -> ok (fst dx) p (snd dx)) -> vsound ok v ->
  vsound ok (fold_left (record_vertex p) dxs v) /\ (forall dx, In dx dxs -> known (fold_left (record_vertex p) dxs v) (fst dx)) /\
  forall d, known v d -> known (fold_left (record_vertex p) dxs v) d.
Proof.
  induction dxs as [|dx dxs IH]; intros v H V; cbn [fold_left]; [split; auto; split; [intros dx []|auto]|].
  destruct (record_ok ok p v dx (H dx (or_introl eq_refl)) V) as [V1 [K1 M1]].
  destruct (IH (record_vertex p v dx)) as [V2 [K2 M2]]; auto; [intros y Hy; apply H; right; auto|].
  split; auto. split; [intros y [<-|Hy]; auto|auto].
Qed.

(** the dof [d] is in the cell [p], at the point [x] *)
Definition located (e : elem) (f : forest itv) (s : dofs) (d : option nat) (p : path) (x : Q) : Prop :=
  exists i k, d = Some i /\ dof_at s p k i /\ position1 e f p k x.
Lemma visit_ok e f s v c : fget f (fst c) = Some (snd c) -> filled (n_dofs D1 e) s (fst c) -> vsound (located e f s) v ->
  exists v', visit_cell e s v c = Ok v' /\ vsound (located e f s) v' /\ (forall d, known v d -> known v' d) /\
    forall k d, dof_at s (fst c) k d -> known v' (Some d).
Proof.
  intros E [l [El [Ll Hl]]] V. destruct c as [p n]. cbn [fst snd] in *. unfold visit_cell. cbn [fst snd]. rewrite El.
  destruct (forallb _ l) eqn:B.
  - exists v. split; auto. split; auto. split; auto. intros k d [l' [El' Hk]]. rewrite El in El'. injection El' as <-.
    apply nth_error_In in Hk. rewrite forallb_forall in B. specialize (B _ Hk). destruct (dv_get v (Some d)) as [l'|] eqn:G; [|discriminate].
    apply dv_get_in in G. apply in_map_iff. exists (Some d, l'). auto.
  - set (dxs := combine l _). assert (D : forall k o x, nth_error dxs k = Some (o, x) -> nth_error l k = Some o /\ exists r, nth_error (reference_nodes1 e) k = Some r /\ x = imap (n_data n) r).
    { intros k o x H. unfold dxs in H. clear - H. revert l k H. induction (reference_nodes1 e) as [|r rs IH]; intros [|o' l] k H; try (destruct k; discriminate).
      destruct k as [|k]; cbn in H; [injection H as -> <-; cbn; eauto|]. apply IH in H. auto. }
    destruct (records_ok (located e f s) p dxs v) as [V' [K' M']]; auto.
    + intros [o x] H. apply In_nth_error in H. destruct H as [k Hk]. destruct (D _ _ _ Hk) as [H1 [r [H2 ->]]]. cbn [fst snd].
      assert (Lk : k < n_dofs D1 e) by (rewrite <- Ll; apply nth_error_Some; congruence).
      destruct (Hl k Lk) as [d [l' [El' Hd]]]. rewrite El in El'. injection El' as <-. rewrite H1 in Hd. injection Hd as ->.
      exists d, k. split; auto. split; [exists l; auto|]. exists n, r. auto.
    + eexists. split; [reflexivity|]. split; auto. split; auto. intros k d [l' [El' Hk]]. rewrite El in El'. injection El' as <-.
      assert (Lk : k < n_dofs D1 e) by (rewrite <- Ll; apply nth_error_Some; congruence).
      assert (exists x, nth_error dxs k = Some (Some d, x)) as [x Hx].
      { unfold dxs. assert (Lr : k < length (map (imap (n_data n)) (reference_nodes1 e))) by (rewrite map_length, nodes_len; auto).
        clear - Hk Lr. revert l k Hk Lr. induction (map (imap (n_data n)) (reference_nodes1 e)) as [|r rs IH]; intros l k Hk Lr; [cbn in Lr; lia|].
        destruct l as [|o l]; [destruct k; discriminate|]. destruct k as [|k]; cbn in *; [injection Hk as ->; eauto|]. apply IH; auto. lia. }
      apply nth_error_In in Hx. apply (K' _ Hx).
Qed.
Lemma visits_ok e f s : forall cs v, (forall c, In c cs -> fget f (fst c) = Some (snd c) /\ filled (n_dofs D1 e) s (fst c)) -> vsound (located e f s) v ->
  exists v', fold_res (visit_cell e s) cs v = Ok v' /\ vsound (located e f s) v' /\ (forall d, known v d -> known v' d) /\
    forall c k d, In c cs -> dof_at s (fst c) k d -> known v' (Some d).
Proof.
  induction cs as [|c cs IH]; intros v H V; cbn [fold_res].
  - exists v. split; auto. split; auto. split; auto. intros c k d [].
  - destruct (H c (or_introl eq_refl)) as [E F]. destruct (visit_ok e f s v c E F V) as [v1 [E1 [V1 [M1 K1]]]]. rewrite E1. cbn [bind].
    destruct (IH v1) as [v2 [E2 [V2 [M2 K2]]]]; auto; [intros y Hy; apply H; right; auto|]. exists v2. split; auto. split; auto. split; auto.
    intros y k d [<-|Hy] Hd; eauto.
Qed.
Lemma set_ok e f sf s v : (forall p, in_sub f sf p -> filled (n_dofs D1 e) s p) -> vsound (located e f s) v ->
  exists v', set_dof_vertices e f sf s v = Ok v' /\ vsound (located e f s) v' /\ (forall d, known v d -> known v' d) /\
   ((exists m, count_dofs f sf s = Ok m /\ m <= length v /\ v' = v) \/
    forall p k d, in_sub f sf p -> dof_at s p k d -> known v' (Some d)).
Proof.
  intros F V. unfold set_dof_vertices, count_dofs. destruct (region_spec f sf s) as [l [E _]].
  { intros p [n [En [Fn _]]]. destruct (F p) as [l [El _]]; [exists n; auto|]. congruence. }
  rewrite E. cbn [bind]. destruct (length l <=? length v) eqn:B.
  - exists v. split; auto. split; auto. split; auto. left. exists (length l). apply Nat.leb_le in B. auto.
  - destruct (visits_ok e f s (ftraverse f sf DepthFirst) v) as [v' [E' [V' [M' K']]]]; auto.
    + intros [p n] H. apply in_ftraverse in H. cbn [fst snd]. split; [apply H|]. apply F. exists n. auto.
    + exists v'. split; auto. split; auto. split; auto. right. intros p k d [n [En Fn]] Hd. apply (K' (p, n) k d); auto. apply in_ftraverse. auto.
Qed.

Lemma position_grows e (f f' : forest itv) p k x : grows f f' -> position1 e f p k x -> position1 e f' p k x.
Proof. intros [_ G] [n [r [E [Er ->]]]]. destruct (G p n E) as [n' [E' [D _]]]. exists n', r. rewrite D. auto. Qed.
Lemma vsound_mono (ok ok' : option nat -> path -> Q -> Prop) v : (forall d p x, ok d p x -> ok' d p x) -> vsound ok v -> vsound ok' v.
Proof. intros H [N S]. split; auto. intros d l Hd. destruct (S d l Hd) as [S1 S2]. split; auto. Qed.
Lemma located_mono e f f' s s' d p x : grows f f' -> keeps s s' -> located e f s d p x -> located e f' s' d p x.
Proof. intros G K [i [k [-> [H1 H2]]]]. exists i, k. split; auto. split; auto. eapply position_grows; eauto. Qed.

Theorem vertex_dof allowed periodic a b e f s v : vertex_history allowed periodic a b e f s v ->
  dof_history periodic a b e f s /\ vsound (located e f s) v.
Proof.
  intro H. induction H as [f M|f s v sf s' v' H [IH1 IH2] A R E|f s v o f' H [IH1 IH2] G E].
  - split; [constructor; auto|]. split; [constructor|]. intros d l [].
  - unfold distribute_dofs in E. cbn [fst snd] in E. destruct (C33_distribute _ _ _ _ _ _ sf IH1 R) as [s1 [E1 [K [_ F]]]]. rewrite E1 in E. cbn [bind] in E.
    assert (V : vsound (located e f s1) v) by (eapply vsound_mono; [|exact IH2]; intros d p x; apply located_mono; [apply grows_refl|auto]).
    destruct (set_ok e f sf s1 v (fun p Hp => proj1 (F p Hp)) V) as [v1 [E2 [V' _]]]. rewrite E2 in E. cbn [bind] in E. injection E as <- <-.
    split; auto. eapply DH_distribute; eauto.
  - split; [eapply DH_change; eauto|]. eapply vsound_mono; [|exact IH2]. intros d p x. apply located_mono; [eapply grows_step; eauto|]. intros q k i Hk. auto.
Qed.

(** ** whole meshes and continuous elements *)
Lemma leaf_node periodic a b e (f : forest itv) sf : mesh1d periodic a b e f -> torn e = false -> submesh_rooted f sf ->
  forall n p k, fget f p = Some n -> fl_ok sf n -> k < n_dofs D1 e ->
  exists q m j, In (q, m) (fget_leaves f None sf DepthFirst) /\ j < n_dofs D1 e /\ (imap (n_data m) (nodeQ e j) == imap (n_data n) (nodeQ e k))%Q.
Proof.
  intros M HC HR. destruct (mesh_good _ _ _ _ _ M) as [G [U _]].
  induction n as [mt d ks IH] using node_ind'. intros p k E F Lk. set (n := Node mt d ks) in *.
  assert (Np : p <> []) by (intros ->; discriminate).
  destruct (has_children n sf) eqn:HN.
  - destruct (leaves_branch ikid f sf G HR p n E F HN) as [ks' [Es [L0 [HK _]]]].
    assert (L2 : length ks' = 2) by (pose proof (U p n E) as X; unfold n_children in X; rewrite Es, map_length in X; auto).
    assert (exists i, i < 2 /\ (Qn i * (1 # 2) <= nodeQ e k <= Qn (S i) * (1 # 2))%Q) as [i [Li Hi]].
    { destruct (nodes_unit e k) as [U0 U1]. assert (Q0 : (Qn 0 == 0)%Q) by reflexivity. assert (Q1' : (Qn 1 == 1)%Q) by reflexivity. assert (Q2' : (Qn 2 == 2)%Q) by reflexivity.
      destruct (Qlt_le_dec (nodeQ e k) (1 # 2)); [exists 0|exists 1]; (split; [lia|]); rewrite ?Q0, ?Q1', ?Q2'; split; lra. }
    destruct (nodes_half e i k HC Li Lk Hi) as [k' HI]. destruct (inh_bound e i k k' Li HI) as [_ Lk'].
    destruct (nth_error ks' i) as [c|] eqn:Ec; [|apply nth_error_None in Ec; lia].
    destruct (HK i c Ec) as [Fc [Ef [Dc _]]].
    assert (Ei : nth_error ks i = Some (Some c)) by (change ks with (n_slots n); rewrite Es, nth_error_map, Ec; auto).
    destruct (IH i c Ei (p ++ [i]) k' Ef Fc Lk') as [q [m [j [Hq [Lj Ej]]]]]. exists q, m, j. split; auto. split; auto.
    rewrite Ej, Dc, L2. symmetry. apply inh_place; auto.
  - exists p, n, k. split; [|split; [auto|reflexivity]]. apply in_fget_leaves. split; auto. split; [|exact Logic.I]. split; auto. apply has_children_false. auto.
Qed.
Theorem whole_known periodic a b e f s v : torn e = false -> vertex_history whole_mesh periodic a b e f s v ->
  forall d, d < dcount s -> known v (Some d).
Proof.
  intros HC H. induction H as [f M|f s v sf s' v' H IH A R E|f s v o f' H IH G E]; auto.
  - intros d Hd. cbn in Hd. lia.
  - destruct (vertex_dof _ _ _ _ _ _ _ _ H) as [HD HV]. unfold whole_mesh in A. subst sf.
    unfold distribute_dofs in E. cbn [fst snd] in E. destruct (C33_distribute _ _ _ _ _ _ None HD R) as [s1 [E1 [K [NU F]]]]. rewrite E1 in E. cbn [bind] in E.
    assert (V : vsound (located e f s1) v) by (eapply vsound_mono; [|exact HV]; intros d p x; apply located_mono; [apply grows_refl|auto]).
    assert (FF := fun p Hp => proj1 (F p Hp)).
    destruct (set_ok e f None s1 v FF V) as [v1 [E2 [V' [MN C]]]]. rewrite E2 in E. cbn [bind] in E. injection E as <- <-.
    assert (HD1 : dof_history periodic a b e f s1) by (eapply DH_distribute; eauto).
    destruct C as [[m [Em [Lm ->]]]|C].
    + destruct (leaf_region e f None s1 FF) as [l [El [Nl Hl]]]. unfold count_dofs in Em. rewrite El in Em. cbn [bind] in Em. injection Em as <-.
      assert (L1 : dcount s1 <= length l).
      { rewrite <- (seq_length (dcount s1) 0), <- (map_length Some). apply NoDup_incl_length; [apply FinFun.Injective_map_NoDup; [intros x y X; congruence|apply seq_NoDup]|].
        intros o Ho. apply in_map_iff in Ho. destruct Ho as [d [<- Hd]]. apply in_seq in Hd. apply Hl.
        assert (Ld : d < dcount s1) by lia. apply NU in Ld. destruct Ld as [p [k Hk]].
        destruct (C34_positions _ _ _ _ _ _ _ _ _ HD1 HC Hk) as [x X]. pose proof X as [n [r [En [Er ->]]]].
        assert (Lk : k < n_dofs D1 e) by (change (n_dofs D1 e) with (nd e); rewrite <- nodes_len; apply nth_error_Some; congruence).
        destruct (leaf_node _ _ _ e f None (history_mesh _ _ _ _ _ _ HD1) HC Logic.I n p k En Logic.I Lk) as [q [m [j [Hq [Lj Ej]]]]].
        destruct (slot_leaf e f None s1 FF q m j Hq Lj) as [d' [Hd' Y]].
        assert (Er' : r = nodeQ e k) by (rewrite (nodes_nth e k Lk) in Er; congruence). subst r.
        assert (d' = d) as <- by (apply (C34_continuous _ _ _ _ _ _ _ _ _ _ _ _ _ _ HD1 HC Hd' Hk Y X); left; auto).
        exists q, m, j, d'. auto. }
      assert (L2 : length v <= dcount s).
      { rewrite <- (map_length fst). replace (dcount s) with (length (map Some (seq 0 (dcount s)))) by (rewrite map_length, seq_length; auto). apply NoDup_incl_length; [apply HV|].
        intros o Ho. apply in_map_iff in Ho. destruct Ho as [[o' l'] [<- Ho]]. cbn [fst]. destruct HV as [_ S]. destruct (S o' l' Ho) as [S1 S2].
        destruct l' as [|[p x] l']; [congruence|]. destruct (S2 p x (or_introl eq_refl)) as [d [k [-> [Hd _]]]]. apply in_map. apply in_seq.
        assert (numbered s).
        { clear - HC HD. destruct (history_inv _ _ _ _ _ _ HC HD) as [B _]. eapply base_numbered; eauto. }
        assert (d < dcount s) by (apply H0; eauto). lia. }
      intros d Hd. apply IH. lia.
    + intros d Hd. apply NU in Hd. destruct Hd as [p [k Hk]]. apply (C p k d); auto.
      destruct (C34_positions _ _ _ _ _ _ _ _ _ HD1 HC Hk) as [x [n [r [En _]]]]. exists n. split; [auto|exact Logic.I].
Qed.

Lemma known_vertex e f s v d : vsound (located e f s) v -> known v (Some d) ->
  exists x p k, get_dof_vertices None v [Some d] = Ok [x] /\ dof_at s p k d /\ position1 e f p k x.
Proof.
  intros [_ S] K. destruct (dv_get_known _ _ K) as [l El]. pose proof (dv_get_in _ _ _ El) as Hl. destruct (S _ _ Hl) as [S1 S2].
  destruct l as [|[p x] l]; [congruence|]. destruct (S2 p x (or_introl eq_refl)) as [i [k [Ei [Hk HX]]]]. injection Ei as <-.
  exists x, p, k. split; auto. unfold get_dof_vertices, dof_vertex. cbn [fold_res]. rewrite El.
  destruct (length ((p, x) :: l) =? 1) eqn:B; [|reflexivity]. apply Nat.eqb_eq in B. destruct l; [reflexivity|discriminate].
Qed.
Lemma vertex_known e f s v d x cells : vsound (located e f s) v -> get_dof_vertices cells v [Some d] = Ok [x] ->
  exists p k, dof_at s p k d /\ position1 e f p k x.
Proof.
  intros [_ S] E. unfold get_dof_vertices, dof_vertex in E. cbn [fold_res] in E. destruct (dv_get v (Some d)) as [l|] eqn:El; [|discriminate].
  pose proof (dv_get_in _ _ _ El) as Hl. destruct (S _ _ Hl) as [S1 S2].
  assert (X : forall p, In (p, x) l -> exists p k, dof_at s p k d /\ position1 e f p k x).
  { intros p Hp. destruct (S2 p x Hp) as [i [k [Ei [Hk HX]]]]. injection Ei as <-. eauto. }
  destruct (length l =? 1) eqn:B.
  - destruct l as [|[p y] [|]]; try discriminate. cbn in E. injection E as <-. apply (X p). left. auto.
  - destruct cells as [c|].
    + destruct (c (Some d)) as [p|]; [|cbn in E; discriminate]. destruct (find _ l) as [[q y]|] eqn:Ef; [|discriminate]. cbn in E. injection E as <-.
      apply find_some in Ef. apply (X q). apply Ef.
    + destruct l as [|[p y] l]; [cbn in E; discriminate|]. cbn in E. injection E as <-. apply (X p). left. auto.
Qed.

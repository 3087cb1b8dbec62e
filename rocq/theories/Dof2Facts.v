(** * Distribution of the degrees of freedom on quadrilateral meshes (for C48) *)
From Coq Require Import List Arith Bool Lia QArith Lqa.
From Verif Require Import Tree Forest Geom SpecGeom Dcel SpecDcel Quad SpecForest TreeFacts ForestFacts QuadFacts QuadSplit QuadInv SpecQuad QuadNb
  DcelFacts QuadInit QuadUniq QuadStart QuadCoords QuadHist Fem SpecFem Prop_Inherit Dof SpecDof DofFacts DofInv Dof2 SpecDof2 SurfFacts Node2Facts VertNb Surf2.
Import ListNotations.
Open Scope nat_scope.

Section fill.
Context (n : nat).
Lemma fill_ok_ext p s1 s s' : (forall q k, slot s1 q k = slot s q k) -> dcount s1 = dcount s -> fill_ok n p s1 s' -> fill_ok n p s s'.
Proof.
  intros E C [A1 [A2 [A3 [A4 [A5 [A6 A7]]]]]]. rewrite C in *. split; auto. split; auto.
  split; [intros q k H; rewrite A3, E; auto|]. split; [intros k d H; apply A4; rewrite E; auto|].
  split; [intros k L H; apply A5; auto; rewrite E; auto|].
  split; [intros d H; destruct (A6 d H) as [k Hk]; exists k; rewrite <- E; auto|].
  intros k j d H1 H2. apply A7; rewrite E; auto.
Qed.
Lemma full_slots s p k : wf n s -> full (entry n s p) = true -> (k < n)%nat -> slot s p k <> None.
Proof.
  intros W F L. unfold full in F. rewrite forallb_forall in F. pose proof (entry_nth_error n s p k W L) as E.
  apply nth_error_In in E. specialize (F _ E). destruct (slot s p k); congruence.
Qed.
End fill.
Lemma fill2_ok e s p : wf (nd2 e) s -> fill_ok (nd2 e) p s (fill_dofs2 e p s).
Proof.
  intros W. unfold fill_dofs2. change (n_dofs D2 e) with (nd2 e). set (n := nd2 e) in *. set (s0 := store p (entry n s p) s).
  assert (W0 : wf n s0) by (apply wf_store; auto; apply entry_len; auto).
  assert (E0 : forall q k, slot s0 q k = slot s q k) by (intros; apply slot_touch; auto).
  destruct (full (entry n s p)) eqn:F.
  - apply (fill_ok_ext n p s0 s s0 E0 eq_refl). split; auto. split; auto. split; auto. split; auto.
    assert (G : forall k, (k < n)%nat -> slot s0 p k <> None) by (intros k L; rewrite E0; apply (full_slots n); auto).
    split; [intros k L H; exfalso; apply (G k L H)|]. split; [intros d H; exfalso; clear - H; lia|].
    intros k j d _ H2 _ H4. exfalso. congruence.
  - apply (fill_ok_ext n p s0 s _ E0 eq_refl). apply fill_facts; auto.
Qed.
Lemma keeps_refl s : keeps' s s. Proof. intros p k d H. auto. Qed.
Lemma keeps_trans s1 s2 s3 : keeps' s1 s2 -> keeps' s2 s3 -> keeps' s1 s3.
Proof. intros H1 H2 p k d H. auto. Qed.
Lemma keeps_some s s' p k : keeps' s s' -> slot s p k <> None -> slot s' p k <> None.
Proof. intros K H. destruct (slot s p k) as [d|] eqn:E; [|congruence]. rewrite (K _ _ _ E). discriminate. Qed.

Section cont.
Context (pts : list pt) (faces : list (list nat)) (m : mesh2) (e : elem).
Hypothesis QF : quad_faces faces.
Hypothesis M : minv pts faces m.
Hypothesis Hcont : torn e = false.
Let I := m_s _ _ _ M.
Local Notation adj := (face_adj faces).
Local Notation orbit := (around_corner adj (here m)).
Local Notation n := (nd2 e).
Local Notation "'nodeof' x" := (place (fst x) (node2 e (snd x))) (at level 10).
Definition same (x y : path * nat) : Prop := glued adj (nodeof x) (nodeof y).
Lemma same_refl x : same x x. Proof. apply glue_refl. Qed.
Lemma same_sym x y : same x y -> same y x. Proof. apply glue_sym. apply (adj_sym pts faces m QF M). Qed.
Lemma same_trans x y z : same x y -> same y z -> same x z. Proof. apply gl_trans. Qed.
Lemma dpv1 : dpv e = 1. Proof. clear - Hcont. destruct e; try discriminate; reflexivity. Qed.
Lemma n4 : 4 <= n. Proof. clear - Hcont. unfold nd2, n_dofs. destruct e; try discriminate; cbn; lia. Qed.

Definition complete (s : dofs) (p : path) : Prop := forall k, k < n -> slot s p k <> None.
Lemma complete_keeps s s' p : keeps' s s' -> complete s p -> complete s' p.
Proof. intros K C k L. eapply keeps_some; eauto. Qed.
Definition vlinks (s : dofs) (p : path) (c : nat) : Prop := forall q d, orbit (p, c) (q, d) -> slot s q d <> None.
Definition elinks (s : dofs) (p : path) (a : nat) : Prop :=
  forall q b i, here m q -> nb adj p a q b -> i < dpe D2 e -> slot s q (eslot e b i) <> None.
Lemma vlinks_keeps s s' p c : keeps' s s' -> vlinks s p c -> vlinks s' p c.
Proof. intros K H q d O. eapply keeps_some; eauto. Qed.
Lemma elinks_keeps s s' p a : keeps' s s' -> elinks s p a -> elinks s' p a.
Proof. intros K H q b i Hq N L. eapply keeps_some; eauto. Qed.

(** ** slots that are the same point *)
Lemma orbit_same p c q d : c < 4 -> orbit (p, c) (q, d) -> d < 4 /\ same (p, c) (q, d).
Proof.
  intros Lc O. assert (Ld : d < 4) by exact (orbit_lt _ (adj_lt pts faces m QF M) _ _ _ O Lc). split; auto.
  unfold same. cbn [fst snd]. eapply gl_trans; [apply glue_place; apply (node2_corner e c Hcont Lc)|].
  eapply gl_trans; [exact (orbit_glue _ (adj_lt pts faces m QF M) _ _ _ O)|].
  cbn [fst snd]. apply glue_place. apply peq_s. apply (node2_corner e d Hcont Ld).
Qed.
Lemma side_same p a q b i : nb adj p a q b -> i < dpe D2 e -> same (p, eslot e a (dpe D2 e - 1 - i)) (q, eslot e b i).
Proof.
  intros N L. destruct (nb_lt pts faces m QF M _ _ _ _ N) as [La Lb]. destruct (etime_rev e i Hcont L) as [T [T0 T1]].
  assert (L' : dpe D2 e - 1 - i < dpe D2 e) by lia. unfold same. cbn [fst snd].
  eapply gl_trans; [apply glue_place; apply (node2_edge e a _ Hcont La L')|].
  eapply gl_trans; [apply (nb_glue _ (adj_lt pts faces m QF M) _ _ _ _ N); rewrite T; lra|].
  apply glue_place. eapply peq_t; [|apply peq_s; apply (node2_edge e b _ Hcont Lb L)]. apply side_peq. rewrite T. ring.
Qed.

(** ** sharing with the neighbours *)
Lemma fold_copies {X} (f : dofs -> X -> res dofs) (G : X -> dofs -> Prop) p l : (forall x s s', keeps' s s' -> G x s -> G x s') ->
  (forall x s, In x l -> wf n s -> complete s p -> exists s', f s x = Ok s' /\ copies n same s s' /\ G x s') ->
  forall s, wf n s -> complete s p -> exists s', fold_res f l s = Ok s' /\ copies n same s s' /\ forall x, In x l -> G x s'.
Proof.
  intros Gm. induction l as [|a l IH]; intros F s W C.
  - exists s. cbn [fold_res]. split; auto. split; [apply copies_refl; auto|]. intros x [].
  - cbn [fold_res]. destruct (F a s (or_introl eq_refl) W C) as [s1 [E1 [C1 G1]]]. rewrite E1. cbn [bind].
    assert (W1 : wf n s1) by apply C1. assert (K1 : keeps' s s1) by apply C1.
    destruct (IH (fun x s H => F x s (or_intror H)) s1 W1 (complete_keeps _ _ _ K1 C)) as [s2 [E2 [C2 G2]]]. exists s2. split; auto.
    split; [eapply copies_trans; eauto; apply same_trans|]. intros x [<-|H]; auto. apply (Gm _ s1); auto. apply C2.
Qed.
Lemma vdofs s p c : wf n s -> here m p -> c < 4 -> vertex_dofs2 e m s p (B (hp m) (side m p c)) = Ok [slot s p c].
Proof.
  intros W Hp Lc. unfold vertex_dofs2. rewrite (verts_idx pts faces m M) by auto. rewrite dpv1, Nat.mul_1_r. change (n_dofs D2 e) with n. f_equal.
  pose proof n4. assert (E := entry_nth_error n s p c W ltac:(lia)). apply nth_error_split in E. destruct E as [l1 [l2 [E1 <-]]].
  rewrite E1, skipn_app, skipn_all, Nat.sub_diag. reflexivity.
Qed.
Lemma vassign s q d o : here m q -> d < 4 -> assign_vertex2 e m [o] (B (hp m) (side m q d)) s q = Ok (assign_pos n q [(d, o)] s).
Proof.
  intros Hq Ld. unfold assign_vertex2. rewrite dpv1. cbn [length Nat.eqb]. rewrite (verts_idx pts faces m M) by auto. rewrite Nat.mul_1_r. reflexivity.
Qed.
Lemma orbit_base p c q d : here m p -> c < 4 -> orbit (p, c) (q, d) -> here m q /\ d < 4 /\ B (hp m) (side m q d) = B (hp m) (side m p c).
Proof.
  intros Hp Lc O. set (v := B (hp m) (side m p c)).
  assert (D0 : dom m v (p, c)) by (split; auto).
  apply (orbit_closed pts faces m QF M v (p, c) D0 (dom m v)) with (y := (q, d)); auto.
Qed.
Lemma share_vertex_ok p s c : here m p -> c < 4 -> wf n s -> complete s p ->
  exists s', share_vertex2 e m p s (B (hp m) (side m p c)) = Ok s' /\ copies n same s s' /\ vlinks s' p c.
Proof.
  intros Hp Lc W C. unfold share_vertex2. rewrite vdofs by auto. cbn [bind length Nat.eqb].
  set (v := B (hp m) (side m p c)) in *. assert (D0 : dom m v (p, c)) by (split; auto).
  destruct (vertex_neighbors_ok pts faces m QF M v (p, c) D0) as [l [E [_ Hl]]]. cbn [fst] in E, Hl. rewrite E. cbn [bind].
  pose proof n4 as N4. destruct (slot s p c) as [d0|] eqn:E0; [|exfalso; apply (C c); auto; lia].
  assert (F : forall l', (forall q, In q l' -> q <> p /\ exists d, orbit (p, c) (q, d)) -> forall s, wf n s -> slot s p c = Some d0 ->
     exists s', fold_res (assign_vertex2 e m [Some d0] v) l' s = Ok s' /\ copies n same s s' /\ forall q d, In q l' -> orbit (p, c) (q, d) -> slot s' q d <> None).
  { clear E Hl W C E0 s. induction l' as [|q l' IH]; intros HL s W E.
    - exists s. split; auto. split; [apply copies_refl; auto|]. intros q d [].
    - cbn [fold_res]. destruct (HL q (or_introl eq_refl)) as [Nq [d O]]. destruct (orbit_base p c q d Hp Lc O) as [Hq [Ld Bq]]. fold v in Bq.
      pose proof (vassign s q d (Some d0) Hq Ld) as VA. rewrite Bq in VA. rewrite VA. cbn [bind]. set (s1 := assign_pos n q [(d, Some d0)] s).
      assert (C1 : copies n same s s1).
      { apply assign_copies; auto. intros k d' [H|[]] _ _. injection H as <- <-. exists p, c. split; auto. apply orbit_same; auto. }
      assert (W1 : wf n s1) by apply C1. assert (K1 : keeps' s s1) by apply C1.
      destruct (IH (fun q' H => HL q' (or_intror H)) s1 W1 (K1 _ _ _ E)) as [s2 [E2 [C2 G2]]]. exists s2. split; auto.
      split; [eapply copies_trans; eauto; apply same_trans|]. intros q' d' [<-|H] O'; eauto.
      assert (d' = d).
      { destruct (orbit_base p c q d' Hp Lc O') as [_ [Ld' Bq']]. apply (m_c _ _ _ M q); auto. fold v in Bq'. congruence. }
      subst d'. apply (keeps_some s1); [apply C2|]. unfold s1. rewrite assign_slot by auto. destruct (slot s q d); [discriminate|].
      destruct (path_dec q q); [|congruence]. destruct (Nat.ltb_spec d n); [|lia]. unfold given. cbn [fold_left fst snd]. rewrite Nat.eqb_refl. discriminate. }
  destruct (F l (fun q H => proj1 (Hl q) H) s W E0) as [s' [E' [C' G']]]. exists s'. split; auto. split; auto.
  intros q d O. destruct (path_dec q p) as [->|Nq].
  - assert (d = c) by (destruct (orbit_base p c p d Hp Lc O) as [_ [Ld' Bq']]; apply (m_c _ _ _ M p); auto). subst d.
    apply (keeps_some s); [apply C'|]. congruence.
  - apply G'; auto. apply Hl. split; eauto.
Qed.
Lemma edofs s p a : wf n s -> here m p -> a < 4 -> edge_dofs2 e m s p (side m p a) = map (fun i => slot s p (eslot e a i)) (seq 0 (dpe D2 e)).
Proof.
  intros W Hp La. unfold edge_dofs2. rewrite (sides_idx pts faces m M) by auto. rewrite (verts_len pts faces m M) by auto. rewrite dpv1. change (n_dofs D2 e) with n.
  set (o := 4 * 1 + a * dpe D2 e). assert (LB : o + dpe D2 e <= n) by (unfold o, nd2, n_dofs; rewrite dpv1; nia).
  apply nth_error_ext. intro i. destruct (Nat.lt_ge_cases i (dpe D2 e)) as [L|L].
  - rewrite nth_error_map. rewrite (nth_error_nth' (seq 0 (dpe D2 e)) 0) by (rewrite seq_length; auto). rewrite seq_nth by auto. cbn [option_map Nat.add].
    assert (X : forall (l : list (option nat)) j k i, i < k -> nth_error (firstn k (skipn j l)) i = nth_error l (j + i)).
    { clear. intros l j. revert l. induction j as [|j IH]; intros l k i L.
      - cbn [skipn Nat.add]. revert l i L. induction k as [|k IHk]; intros l i L; [lia|]. destruct l, i; cbn; auto. apply IHk. lia.
      - destruct l; cbn [skipn Nat.add nth_error]; [|apply IH; auto]. rewrite firstn_nil. destruct i; auto. }
    rewrite X by auto. rewrite entry_nth_error by (auto; lia). f_equal. f_equal. unfold eslot, o. rewrite dpv1. lia.
  - transitivity (@None (option nat)); [apply nth_error_None; rewrite firstn_length; lia|symmetry; apply nth_error_None; rewrite map_length, seq_length; auto].
Qed.
Lemma rev_seq (f : nat -> option nat) : rev (map f (seq 0 (dpe D2 e))) = map (fun i => f (dpe D2 e - 1 - i)) (seq 0 (dpe D2 e)).
Proof. clear - Hcont. destruct e; try discriminate; reflexivity. Qed.
Lemma combine_map {X A B} (f : X -> A) (g : X -> B) l : combine (map f l) (map g l) = map (fun x => (f x, g x)) l.
Proof. induction l; cbn; auto. f_equal. auto. Qed.
Lemma seq_map o k : seq o k = map (fun i => o + i) (seq 0 k).
Proof.
  revert o. induction k as [|k IH]; intro o; auto. cbn [seq map]. f_equal; [lia|]. rewrite (IH (S o)), (IH 1), map_map.
  apply map_ext. intro i. lia.
Qed.
Lemma share_edge_ok p s a : here m p -> a < 4 -> wf n s -> complete s p ->
  exists s', share_edge2 e m p s (side m p a) = Ok s' /\ copies n same s s' /\ elinks s' p a.
Proof.
  intros Hp La W C. unfold share_edge2. rewrite edofs by auto. rewrite map_length, seq_length.
  destruct (Nat.eqb_spec (dpe D2 e) 0) as [Z|Z].
  { exists s. split; auto. split; [apply copies_refl; auto|]. intros q b i _ _ L. lia. }
  rewrite (neighbors_via pts faces m M) by auto. cbn [bind]. destruct (via m (side m p a)) as [[q b]|] eqn:V; cbn [option_map fst].
  - apply (via_spec pts faces m M) in V; auto. destruct V as [Hq [Lb ET]]. rewrite ET.
    assert (N : nb adj p a q b) by (apply (twin_iff pts faces m QF M); auto).
    unfold assign_edge2. rewrite rev_length, map_length, seq_length, Nat.eqb_refl. rewrite (sides_idx pts faces m M) by auto.
    rewrite (verts_len pts faces m M) by auto. change (n_dofs D2 e) with n. rewrite rev_seq, (seq_map (4 * dpv e + b * dpe D2 e)), combine_map.
    change (fun x => (4 * dpv e + b * dpe D2 e + x, slot s p (eslot e a (dpe D2 e - 1 - x)))) with (fun x => (eslot e b x, slot s p (eslot e a (dpe D2 e - 1 - x)))).
    eexists. split; [reflexivity|]. split.
    + apply assign_copies; auto. intros k d H _ _. apply in_map_iff in H. destruct H as [i [Ei Hi]]. apply in_seq in Hi. injection Ei as <- Ed.
      exists p, (eslot e a (dpe D2 e - 1 - i)). split; auto. apply side_same; auto. lia.
    + intros q' b' i Hq' N' L. destruct (nb_lt pts faces m QF M _ _ _ _ N') as [_ Lb'].
      pose proof (proj2 (twin_iff pts faces m QF M p a q' b' Hp Hq' La Lb') N') as ET'.
      assert (Es : side m q' b' = side m q b) by congruence. apply (QuadInv.side_inj I) in Es; auto. destruct Es as [-> ->].
      rewrite assign_slot by auto. destruct (slot s q (eslot e b i)); [discriminate|]. destruct (path_dec q q); [|congruence].
      destruct (Nat.ltb_spec (eslot e b i) n) as [LL|LL]; [|pose proof (eslot_lt e b i Lb L); unfold nd2 in *; lia].
      assert (L' : dpe D2 e - 1 - i < dpe D2 e) by lia. pose proof (C _ (eslot_lt e a _ La L')) as NE.
      destruct (slot s p (eslot e a (dpe D2 e - 1 - i))) as [d|] eqn:Ed; [|congruence].
      edestruct given_ex as [d' ->]; [|discriminate]. apply in_map_iff. exists i. rewrite Ed. split; [reflexivity|]. apply in_seq. lia.
  - exists s. split; auto. split; [apply copies_refl; auto|]. intros q b i Hq N L. exfalso.
    destruct (nb_lt pts faces m QF M _ _ _ _ N) as [_ Lb]. apply (twin_iff pts faces m QF M) in N; auto.
    apply (via_none pts faces m M) in V; auto. congruence.
Qed.
Lemma share_neighbors2_ok p s : here m p -> wf n s -> complete s p ->
  exists s', share_neighbors2 e m p s = Ok s' /\ copies n same s s' /\ (forall c, c < 4 -> vlinks s' p c) /\ (forall a, a < 4 -> elinks s' p a).
Proof.
  intros Hp W C. unfold share_neighbors2. rewrite Hcont.
  rewrite (verts_list pts faces m M p Hp), (sides_here pts faces m M p Hp).
  destruct (fold_copies (fun s c => share_vertex2 e m p s (B (hp m) (side m p c))) (fun c s => vlinks s p c) p [0; 1; 2; 3]) with (s := s) as [s1 [E1 [C1 G1]]]; auto.
  { intros x t t' K. apply vlinks_keeps; auto. }
  { intros c t Hc Wt Ct. apply share_vertex_ok; auto. cbn in Hc. lia. }
  assert (FM : forall {X Y} (f : dofs -> Y -> res dofs) (g : X -> Y) l s, fold_res f (map g l) s = fold_res (fun s x => f s (g x)) l s).
  { clear. intros X Y f g l. induction l as [|x l IH]; intro s; cbn [map fold_res]; auto. destruct (f s (g x)); cbn [bind]; auto. }
  rewrite FM, E1. cbn [bind]. assert (K1 : keeps' s s1) by apply C1.
  destruct (fold_copies (fun s a => share_edge2 e m p s (side m p a)) (fun a s => elinks s p a) p [0; 1; 2; 3]) with (s := s1) as [s2 [E2 [C2 G2]]]; auto.
  { intros x t t' K. apply elinks_keeps; auto. }
  { intros c t Hc Wt Ct. apply share_edge_ok; auto. cbn in Hc. lia. }
  { apply C1. }
  { eapply complete_keeps; eauto. }
  rewrite FM, E2. exists s2. split; auto. split; [eapply copies_trans; eauto; apply same_trans|]. split.
  - intros c L. apply (vlinks_keeps s1); [apply C2|]. apply G1. destruct c as [|[|[|[|c]]]]; cbn; auto; lia.
  - intros a L. apply G2. destruct a as [|[|[|[|a]]]]; cbn; auto; lia.
Qed.

(** ** the invariant *)
Definition done (s : dofs) (p : path) : Prop :=
  here m p /\ complete s p /\ (forall c, c < 4 -> vlinks s p c) /\ (forall a, a < 4 -> elinks s p a).
Lemma done_keeps s s' p : keeps' s s' -> done s p -> done s' p.
Proof.
  intros K [A [B [D F]]]. split; auto. split; [eapply complete_keeps; eauto|].
  split; [intros c L; eapply vlinks_keeps; eauto|intros a L; eapply elinks_keeps; eauto].
Qed.
Definition inv (s : dofs) (P : path -> Prop) : Prop :=
  base_inv n s /\ classes same s /\
  (forall p, P p -> done s p) /\
  (forall p i, p <> [] -> P (p ++ [i]) -> P p) /\
  (forall q k d, slot s q k = Some d -> exists r i, P r /\ i < n /\ same (r, i) (q, k)).
Lemma inv_up s P p r : inv s P -> p <> [] -> P (p ++ r) -> P p.
Proof.
  intros [_ [_ [_ [U _]]]] N. induction r as [|i r IH] using rev_ind; [rewrite app_nil_r; auto|]. rewrite app_assoc. intro H. apply IH.
  eapply U; eauto. destruct p; [congruence|discriminate].
Qed.
(** what the parent has handed down *)
Definition ready (s : dofs) (p : path) : Prop :=
  forall q i j k, p = q ++ [i] -> q <> [] -> In (j, k) (inherited (ref2 e) i) -> slot s p k <> None.
(** a node of an ancestor is handed down *)
Lemma in_ancestor r : forall j x, r <> [] -> Forall (fun i => i < 4) r -> j < n -> unit_pt x -> peq (in_root r x) (node2 e j) ->
  exists i j' k, r = removelast r ++ [i] /\ In (j', k) (inherited (ref2 e) i) /\ k < n /\ peq x (node2 e k).
Proof.
  induction r as [|i r IH]; intros j x N F Lj U E; [congruence|]. inversion F as [|? ? Li F']; subst. cbn [in_root] in E.
  destruct (nodes_quarter e i j (in_root r x) Hcont Li Lj (unit_root r x U) E) as [k [HI [Lk Ek]]].
  destruct r as [|i' r].
  - cbn [in_root] in Ek. exists i, j, k. cbn [removelast app]. auto.
  - destruct (IH k x) as [i0 [j0 [k0 [R [HI0 [Lk0 Ek0]]]]]]; auto; [discriminate|]. exists i0, j0, k0. split; auto.
    change (removelast (i :: i' :: r)) with (i :: removelast (i' :: r)). cbn [app]. f_equal. auto.
Qed.
Lemma here_digits p : here m p -> forall i r q, p = q ++ i :: r -> q <> [] -> i < 4.
Proof.
  intros H i r q -> N. assert (X : here m ((q ++ [i]) ++ r)) by (rewrite <- app_assoc; auto).
  apply (here_prefix m) in X; [|destruct q; discriminate]. apply (here_fam pts faces m M q i N X).
Qed.
(** ** no point gets a second number *)
Lemma cut_path (p : path) l : 0 < l -> l <= length p -> exists a r, p = a ++ r /\ length a = l /\ a <> [].
Proof.
  intros L1 L2. exists (firstn l p), (skipn l p). split; [symmetry; apply firstn_skipn|]. assert (X : length (firstn l p) = l) by (rewrite firstn_length; lia).
  split; auto. intro Z. rewrite Z in X. cbn in X. lia.
Qed.
Lemma inh_corner c : c < 4 -> In (c, c) (inherited (ref2 e) c).
Proof.
  intro L. assert (A : forallb (fun c => existsb (fun a => (fst a =? c) && (snd a =? c)) (inherited (ref2 e) c)) (seq 0 4) = true)
    by (clear - Hcont; destruct e; try discriminate; vm_compute; reflexivity).
  rewrite seq_all in A. specialize (A c L). apply existsb_exists in A. destruct A as [[a b] [H E]]. cbn [fst snd] in E.
  apply andb_true_iff in E. rewrite !Nat.eqb_eq in E. destruct E as [-> ->]. auto.
Qed.
Lemma cover s P p k q j d : inv s P -> here m p -> ready s p -> k < n -> slot s q j = Some d -> same (q, j) (p, k) -> slot s p k <> None.
Proof.
  intros IV Hp Rd Lk Eq Sm. pose proof IV as [BI [CL [PD [PU PC]]]].
  destruct (PC q j d Eq) as [r [i [Pr [Li Sr]]]]. assert (S1 : same (p, k) (r, i)) by (apply same_sym; eapply same_trans; eauto). clear Eq Sm Sr q j d.
  pose proof (here_ne m p Hp) as Np. destruct (PD r Pr) as [Hr [Cr _]]. pose proof (here_ne m r Hr) as Nr.
  unfold same in S1. cbn [fst snd] in S1. destruct (Nat.le_gt_cases (length p) (length r)) as [LE|LT].
  - destruct (cut_path r (length p)) as [r' [u [-> [Lr' Nr']]]]; auto; [destruct p; [congruence|cbn; lia]|].
    rewrite place_app in S1 by auto. pose proof (inv_up s P r' u IV Nr' Pr) as Pr'. destruct (PD r' Pr') as [Hr' [Cr' [Vr' Er']]].
    destruct (surf_level pts faces m QF M p r' (eq_sym Lr') Hp Hr' _ _ (nodes2_unit e k) (unit_root u _ (nodes2_unit e i)) S1) as [[-> _]|[T|T]].
    + apply Cr'; auto.
    + destruct T as [a [b [t [N [Ht [E1 E2]]]]]]. destruct (nb_lt pts faces m QF M _ _ _ _ N) as [La Lb].
      destruct (side_nodes e a k t Hcont La Lk E1) as [[-> Z]|[[-> Z]|[x [Lx [-> Z]]]]].
      * apply (Vr' ((b + 1) mod 4) (m4_lt _) p a). apply orbit_one. split; [exact Hr'|]. split; [exact Hp|]. exists b, a. cbn [fst snd].
        split; [apply (nb_sym adj p a r' b (adj_sym pts faces m QF M)); auto|]. right. auto.
      * apply (Vr' b Lb p ((a + 1) mod 4)). apply orbit_one. split; [exact Hr'|]. split; [exact Hp|]. exists b, a. cbn [fst snd].
        split; [apply (nb_sym adj p a r' b (adj_sym pts faces m QF M)); auto|]. left. auto.
      * apply (Er' b Lb p a x); auto. apply (nb_sym adj p a r' b (adj_sym pts faces m QF M)). auto.
    + destruct T as [c [d [Lc [Ld [E1 [E2 T]]]]]]. assert (k = c) by (apply (corner_node2 e c k); auto). subst k.
      destruct T as [[p' [q' [-> [-> [N1 N2]]]]]|O].
      * apply (Rd p' c c c); auto. apply inh_corner; auto.
      * apply (Vr' d Ld p c). apply (orbit_sym _ (adj_sym pts faces m QF M)). auto.
  - destruct (cut_path p (length r)) as [a [u [-> [La Na]]]]; [destruct r; [congruence|cbn; lia]|lia|].
    rewrite place_app in S1 by auto. pose proof (here_prefix m a u Na Hp) as Ha.
    assert (Nu : u <> []) by (intros ->; rewrite app_nil_r in LT; lia).
    assert (exists j, j < n /\ peq (in_root u (node2 e k)) (node2 e j)) as [j [Lj Ej]].
    { destruct (surf_level pts faces m QF M a r La Ha Hr _ _ (unit_root u _ (nodes2_unit e k)) (nodes2_unit e i) S1) as [[-> E]|[T|T]].
      - exists i. auto.
      - destruct T as [x [b [t [N [Ht [E1 E2]]]]]]. destruct (nb_lt pts faces m QF M _ _ _ _ N) as [Lx Lb].
        destruct (side_nodes e b i (1 - t) Hcont Lb Li E2) as [[-> Z]|[[-> Z]|[y [Ly [-> Z]]]]].
        + exists ((x + 1) mod 4). destruct (node2_corner e ((x + 1) mod 4) Hcont (m4_lt _)) as [L1 L2]. split; auto.
          eapply peq_t; [exact E1|]. eapply peq_t; [|apply peq_s; exact L2]. eapply peq_t; [|apply side_1; auto]. apply side_peq. lra.
        + exists x. destruct (node2_corner e x Hcont Lx) as [L1 L2]. split; auto.
          eapply peq_t; [exact E1|]. eapply peq_t; [|apply peq_s; exact L2]. eapply peq_t; [|apply side_0; auto]. apply side_peq. lra.
        + assert (Ly' : dpe D2 e - 1 - y < dpe D2 e) by lia. exists (eslot e x (dpe D2 e - 1 - y)). split; [apply eslot_lt; auto|].
          eapply peq_t; [exact E1|]. eapply peq_t; [|apply peq_s; apply node2_edge; auto]. apply side_peq.
          destruct (etime_rev e y Hcont Ly) as [T1 _]. rewrite T1. lra.
      - destruct T as [c [d [Lc [Ld [E1 _]]]]]. exists c. destruct (node2_corner e c Hcont Lc) as [L1 L2]. split; auto.
        eapply peq_t; [exact E1|]. apply peq_s; auto. }
    assert (FD : Forall (fun i => i < 4) u).
    { apply Forall_forall. intros x Hx. apply in_split in Hx. destruct Hx as [u1 [u2 ->]]. apply (here_digits _ Hp x u2 (a ++ u1)); [rewrite <- app_assoc; auto|destruct a; [congruence|discriminate]]. }
    destruct (in_ancestor u j (node2 e k) Nu FD Lj (nodes2_unit e k) Ej) as [i0 [j0 [k0 [R [HI [Lk0 E0]]]]]].
    assert (k = k0) by (apply (nodes2_inj e); auto). subst k0.
    apply (Rd (a ++ removelast u) i0 j0 k); auto; [rewrite <- app_assoc, <- R; auto|destruct a; [congruence|discriminate]].
Qed.

(** ** one round of the loop *)
Definition handed (s : dofs) (p : path) : Prop :=
  forall i j k, here m (p ++ [i]) -> In (j, k) (inherited (ref2 e) i) -> slot s (p ++ [i]) k <> None.
Lemma parent_of p i c : p <> [] -> fget (cells m) (p ++ [i]) = Some c -> exists x, fget (cells m) p = Some x /\ nth_error (n_slots x) i = Some (Some c).
Proof.
  intros Hp E. rewrite fget_snoc in E by auto. destruct (fget (cells m) p) as [x|]; [|discriminate]. exists x. split; auto.
  destruct (nth_error (n_slots x) i) as [[k|]|]; try discriminate. congruence.
Qed.
Lemma parent_fl sf p i c x : submesh_rooted (cells m) sf -> fget (cells m) p = Some x -> fget (cells m) (p ++ [i]) = Some c -> fl_ok sf c -> fl_ok sf x.
Proof.
  intros HR Ex En F. destruct sf as [g|]; [|exact Logic.I]. destruct HR as [_ [HU _]].
  assert (Hp : p <> []) by (intros ->; discriminate).
  specialize (HU p i [] Hp). unfold marked_at in HU. rewrite En, Ex in HU. apply HU; auto.
Qed.
Lemma process2_ok sf s P p x : inv s P -> fget (cells m) p = Some x -> ready s p -> (forall q i, p = q ++ [i] -> q <> [] -> P q) ->
  exists s', process2 e m sf s (p, x) = Ok s' /\ inv s' (fun q => P q \/ q = p) /\ keeps' s s' /\ (has_children x sf = true -> handed s' p).
Proof.
  intros IV E R PP. pose proof IV as [BI [CL [PD [PU PC]]]]. assert (W : wf n s) by apply BI.
  assert (Hp : here m p) by (apply here_fget; eauto). pose proof (here_ne m p Hp) as Np.
  unfold process2. cbn [fst snd]. pose proof (fill2_ok e s p W) as F. set (s1 := fill_dofs2 e p s) in *.
  pose proof (fill_keeps _ _ _ _ F) as K1. assert (C1 : complete s1 p) by (intros k L; eapply fill_complete; eauto).
  assert (W1 : wf n s1) by apply F.
  destruct (share_neighbors2_ok p s1 Hp W1 C1) as [s2 [E2 [CP [V2 X2]]]]. rewrite E2. cbn [bind].
  assert (B1 : base_inv n s1) by (eapply fill_base; eauto).
  assert (CL1 : classes same s1).
  { eapply classes_fill; [exact same_refl|exact same_sym|exact BI|exact CL|exact F| |].
    - intros k j Lk Lj H. unfold same in H. cbn [fst snd] in H. apply (surf_cell pts faces m QF M) in H. apply (nodes2_inj e); auto.
    - intros k q j d Lk H Sm. eapply cover; eauto. }
  set (P' := fun q => P q \/ q = p).
  assert (STEP : forall t, copies n same s1 t -> done t p -> inv t P').
  { intros t Ct Dt. assert (Kt : keeps' s1 t) by apply Ct.
    split; [eapply copies_base; eauto|]. split; [eapply classes_copies; [exact same_refl|exact same_sym|exact same_trans|exact CL1|exact Ct]|].
    split; [|split].
    - intros q [H| ->]; auto. apply (done_keeps s t); auto. eapply keeps_trans; eauto.
    - intros q i Nq [H|H]; left; eauto.
    - intros q k d H.
      assert (X : forall q k d, slot s1 q k = Some d -> exists r i, P' r /\ i < n /\ same (r, i) (q, k)).
      { clear q k d H. intros q k d H. destruct (fill_cases _ _ _ _ _ _ _ BI F H) as [[H' _]|[-> [Lk _]]].
        - destruct (PC q k d H') as [r [i [A1 [A2 A3]]]]. exists r, i. split; [left; auto|auto].
        - exists p, k. split; [right; auto|]. split; auto. apply same_refl. }
      destruct Ct as [_ [_ [_ Ct]]]. destruct (Ct q k d H) as [H'|[_ [r [i [H' Sm]]]]]; [eauto|].
      destruct (X r i d H') as [r0 [i0 [A1 [A2 A3]]]]. exists r0, i0. split; auto. split; auto. eapply same_trans; eauto. }
  assert (K2 : keeps' s1 s2) by apply CP.
  assert (DN2 : done s2 p) by (split; auto; split; [eapply complete_keeps; eauto|auto]).
  destruct (has_children x sf) eqn:HC.
  - change (n_dofs D2 e) with n. set (s3 := share_children n (inherited (ref2 e)) p x s2).
    assert (W2 : wf n s2) by apply CP.
    assert (C3 : copies n same s2 s3).
    { apply children_copies; auto. intros i j k c Hc HI. assert (Hi : here m (p ++ [i])) by (apply here_fget; exists c; rewrite fget_snoc by auto; rewrite E, Hc; auto).
      destruct (here_fam pts faces m M p i Np Hi) as [_ [Li _]]. destruct (inh2_place e i j k Li HI) as [_ [_ Q]].
      unfold same. cbn [fst snd]. rewrite place_snoc by auto. apply glue_place. auto. }
    assert (K3 : keeps' s2 s3) by apply C3.
    exists s3. split; auto. split; [apply STEP; [eapply copies_trans; eauto; apply same_trans|eapply done_keeps; eauto]|].
    split; [eapply keeps_trans; eauto; eapply keeps_trans; eauto|]. intros _ i j k Hi HI.
    destruct (here_fam pts faces m M p i Np Hi) as [_ [Li _]]. destruct (inh2_place e i j k Li HI) as [Lj [Lk _]].
    unfold s3. rewrite share_children_slot by auto. destruct (slot s2 (p ++ [i]) k) eqn:EE; [discriminate|].
    destruct (in_dec path_dec (p ++ [i]) (map fst (kids_of p x))) as [H|H].
    + destruct (Nat.ltb_spec k n); [|lia]. assert (Cj := proj1 (proj2 DN2) j Lj). destruct (slot s2 p j) as [d|] eqn:Ed; [|congruence].
      edestruct given_ex as [d' ->]; [|discriminate]. apply in_map_iff. exists (j, k). cbn [fst snd]. rewrite Ed. split; [reflexivity|].
      rewrite last_last. auto.
    + exfalso. apply H. pose proof Hi as Hi'. apply here_fget in Hi'. destruct Hi' as [c Ec]. destruct (parent_of p i c Np Ec) as [y [Ey Ei]].
      assert (y = x) by congruence. subst y. apply in_map_iff. exists (p ++ [i], c). split; auto. apply in_kids_of. exists i. auto.
  - exists s2. split; auto. split; [apply STEP; auto|]. split; [eapply keeps_trans; eauto|discriminate].
Qed.
Lemma inv_ext s P P' : (forall q, P q <-> P' q) -> inv s P -> inv s P'.
Proof.
  intros H [A [B [C [D F]]]]. split; auto. split; auto. split; [intros p Hp; apply C, H; auto|]. split.
  - intros p i N Hp. apply H. apply (D p i N). apply H. auto.
  - intros q k d E. destruct (F q k d E) as [r [i [X Y]]]. exists r, i. split; auto. apply H; auto.
Qed.
Lemma loop2_ok sf : submesh_rooted (cells m) sf -> forall l1 l2 s P, l1 ++ l2 = ftraverse (cells m) sf BreadthFirst ->
  inv s P -> (forall p x, In (p, x) l1 -> P p /\ (has_children x sf = true -> handed s p)) ->
  exists s' P', fold_res (process2 e m sf) l2 s = Ok s' /\ inv s' P' /\ keeps' s s' /\ (forall p x, In (p, x) (l1 ++ l2) -> P' p).
Proof.
  intros HR l1 l2. revert l1. induction l2 as [|[p x] l2 IH]; intros l1 s P EL IV H.
  - exists s, P. split; [reflexivity|]. split; auto. split; [apply keeps_refl|]. rewrite app_nil_r. intros p x Hp. apply (H p x Hp).
  - assert (Hin : In (p, x) (ftraverse (cells m) sf BreadthFirst)) by (rewrite <- EL; apply in_or_app; right; left; auto).
    apply in_ftraverse in Hin. destruct Hin as [Ex Fx].
    assert (R : forall q i, p = q ++ [i] -> q <> [] -> P q /\ handed s q).
    { intros q i Ep Hq. assert (Ex' : fget (cells m) (q ++ [i]) = Some x) by (rewrite <- Ep; auto).
      destruct (parent_of q i x Hq Ex') as [y [Ey Ei]].
      assert (Fy : fl_ok sf y) by (eapply (parent_fl sf q i x y HR); eauto).
      assert (Lp : length p = S (length q)) by (rewrite Ep, app_length; cbn; lia).
      assert (Hy : In (q, y) (l1 ++ (p, x) :: l2)) by (rewrite EL; apply in_ftraverse; auto).
      apply in_app_or in Hy. destruct Hy as [Hy|[Hy|Hy]].
      - destruct (H q y Hy) as [H1 H2]. split; auto. apply H2. unfold has_children. apply existsb_exists. exists (Some x). split; [eapply nth_error_In; eauto|].
        unfold fl_ok in Fx. destruct sf; auto.
      - exfalso. injection Hy as Hy _. rewrite Hy in Lp. clear - Lp. lia.
      - exfalso. pose proof (ftraverse_sorted (cells m) sf BreadthFirst) as SS. cbv beta iota in SS. rewrite <- EL, map_app in SS.
        assert (S2 : Sorting.Sorted.StronglySorted levlt (map fst ((p, x) :: l2))).
        { clear - SS. revert SS. generalize (map fst ((p, x) :: l2)). intros l SS. induction (map fst l1); auto. inversion SS; auto. }
        cbn [map fst] in S2. inversion S2 as [|? ? _ FA]; subst. rewrite Forall_forall in FA. specialize (FA q (in_map fst _ _ Hy)).
        unfold levlt in FA. destruct FA as [FA|[FA _]]; lia. }
    assert (Hp : here m p) by (apply here_fget; eauto).
    destruct (process2_ok sf s P p x IV Ex) as [s1 [E1 [I1 [K1 S1]]]].
    { intros q i j k Ep Nq HI. rewrite Ep. apply (proj2 (R q i Ep Nq) i j k); auto. rewrite <- Ep. auto. }
    { intros q i Ep Nq. apply (R q i Ep Nq). }
    cbn [fold_res]. rewrite E1. cbn [bind].
    destruct (IH (l1 ++ [(p, x)]) s1 (fun q => P q \/ q = p)) as [s' [P' [E' [I' [K' H']]]]]; auto.
    + rewrite <- app_assoc. auto.
    + intros q y Hy. apply in_app_or in Hy. destruct Hy as [Hy|[Hy|[]]].
      * destruct (H q y Hy) as [A1 A2]. split; [left; auto|]. intros HC i j k Hi HI. eapply keeps_some; [exact K1|]. apply (A2 HC i j k); auto.
      * injection Hy as <- <-. split; auto.
    + exists s', P'. split; auto. split; auto. split; [eapply keeps_trans; eauto|]. rewrite <- app_assoc in H'. auto.
Qed.
Lemma distribute2_ok sf s P : submesh_rooted (cells m) sf -> inv s P -> is_balanced None m = Ok true ->
  exists s' P', distribute2 e m sf s = Ok s' /\ inv s' P' /\ keeps' s s' /\ (forall p, in_sub (cells m) sf p -> complete s' p).
Proof.
  intros HR IV BL. destruct (loop2_ok sf HR [] (ftraverse (cells m) sf BreadthFirst) s P eq_refl IV) as [s' [P' [E [I' [K H]]]]]; [intros p x []|].
  exists s', P'. unfold distribute2. rewrite BL. cbn [bind]. split; auto. split; auto. split; auto. intros p [x [Ex Fx]].
  destruct I' as [_ [_ [PD _]]]. apply (PD p). apply (H p x). cbn [app]. apply in_ftraverse. auto.
Qed.
Lemma inv_empty : inv no_dofs (fun _ => False).
Proof. split; [apply base_empty|]. split; [intros p k q j d d' H; discriminate|]. split; [intros p []|]. split; [intros p i _ []|]. intros q k d H. discriminate. Qed.
End cont.

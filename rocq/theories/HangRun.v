(** * What set_hanging_nodes collects (for C51, C52) *)
From Coq Require Import List Arith Bool Lia QArith Lqa Permutation.
From Verif Require Import Tree Forest Geom SpecGeom Dcel SpecDcel Quad SpecForest TreeFacts ForestFacts QuadFacts QuadSplit QuadInv SpecQuad QuadNb
  DcelFacts QuadInit QuadUniq QuadStart QuadCoords QuadHist Prop_QuadMesh BalSets Prop_Balance Fem SpecFem Prop_Inherit Dof SpecDof DofFacts DofInv Dof2 SpecDof2
  SurfFacts Node2Facts VertNb Surf2 Dof2Facts Solver Hang SpecHang HangRef.
Import ListNotations.
Open Scope nat_scope.

Notation entry_h := (nat * (list nat * list Q))%type.
(** [H'] comes from [H] by writing entries in [P], and keys in [P] are there *)
Definition adds (P : entry_h -> Prop) (H H' : hdict) : Prop :=
  (forall x, In x H' -> In x H \/ P x) /\ (forall x, P x -> In (fst x) (map fst H')) /\ (forall d, In d (map fst H) -> In d (map fst H')).
Lemma adds_none (P : entry_h -> Prop) H : (forall x, ~ P x) -> adds P H H.
Proof. intro N. split; auto. split; auto. intros x Px. destruct (N x Px). Qed.
Lemma adds_ext (P P' : entry_h -> Prop) H H' : (forall x, P x <-> P' x) -> adds P H H' -> adds P' H H'.
Proof. intros E [A [B C]]. split; [intros x Hx; destruct (A x Hx); auto; right; apply E; auto|]. split; auto. intros x Px. apply B. apply E. auto. Qed.
Lemma adds_dset d v H : adds (fun x => x = (d, v)) H (dset d v H).
Proof.
  assert (X : (forall x, In x (dset d v H) -> In x H \/ x = (d, v)) /\ In d (map fst (dset d v H)) /\ forall d', In d' (map fst H) -> In d' (map fst (dset d v H))).
  { induction H as [|[d' v'] r [A [B C]]]; cbn [dset map].
    - split; [intros x [<-|[]]; auto|]. split; [left; auto|intros d' []].
    - destruct (Nat.eqb_spec d' d) as [->|N]; cbn [In map fst].
      + split; [intros x [<-|Hx]; auto|]. split; auto.
      + split; [intros x [<-|Hx]; auto; destruct (A x Hx); auto|]. split; auto. intros d0 [<-|Hx]; auto. }
  destruct X as [A [B C]]. split; auto. split; auto. intros x ->. auto.
Qed.
Lemma fold_adds {X} (f : hdict -> X -> res hdict) (P : X -> entry_h -> Prop) l :
  (forall x H, In x l -> exists H', f H x = Ok H' /\ adds (P x) H H') ->
  forall H, exists H', fold_res f l H = Ok H' /\ adds (fun y => exists x, In x l /\ P x y) H H'.
Proof.
  induction l as [|x l IH]; intros F H; cbn [fold_res].
  - exists H. split; auto. apply adds_none. intros y [x [[] _]].
  - destruct (F x H (or_introl eq_refl)) as [H1 [E1 [A1 [B1 C1]]]]. rewrite E1. cbn [bind].
    destruct (IH (fun y K Hy => F y K (or_intror Hy)) H1) as [H2 [E2 [A2 [B2 C2]]]]. exists H2. split; auto. split; [|split; auto].
    + intros y Hy. destruct (A2 y Hy) as [Hy1|[x' [I' P']]]; [|right; exists x'; split; [right|]; auto].
      destruct (A1 y Hy1); auto. right. exists x. split; [left|]; auto.
    + intros y [x' [[<-|I'] Py]]; [apply C2; apply B1; auto|apply B2; eauto].
Qed.
Lemma map_res_ok {X Y} (f : X -> res Y) (g : X -> Y) l : (forall x, In x l -> f x = Ok (g x)) -> map_res f l = Ok (map g l).
Proof.
  induction l as [|x l IH]; intro F; cbn [map_res map]; auto. rewrite (F x (or_introl eq_refl)). cbn [bind]. rewrite IH; auto. intros y Hy. apply F. right. auto.
Qed.
Definition dofn (s : dofs) (p : path) (k : nat) : nat := match slot s p k with Some d => d | None => 0 end.
Lemma dof_of_slot s p k d : slot s p k = Some d -> dof_of s p k = Ok d.
Proof. unfold slot, dof_of. destruct (gd s p) as [l|]; [|discriminate]. intro E. destruct (nth_error l k) as [[d'|]|]; try discriminate. congruence. Qed.

Section run.
Context (order : list nat -> list nat) (pts : list pt) (faces : list (list nat)) (m : mesh2) (e : elem) (s : dofs) (sf : option flag).
Hypothesis PO : forall l, Permutation (order l) l.
Hypothesis QF : quad_faces faces.
Hypothesis M : minv pts faces m.
Hypothesis Hcont : torn e = false.
Hypothesis R : submesh_rooted (cells m) sf.
Hypothesis FILL : forall p, in_sub (cells m) sf p -> complete e s p.
Let I := m_s _ _ _ M.
Local Notation adj := (face_adj faces).
Local Notation ins := (in_sub (cells m) sf).
Lemma slot_dofn p k : ins p -> k < nd2 e -> slot s p k = Some (dofn s p k).
Proof. intros Hp L. unfold dofn. pose proof (FILL p Hp k L). destruct (slot s p k); congruence. Qed.
Lemma ins_up p i : p <> [] -> ins (p ++ [i]) -> ins p.
Proof. intros N H. eapply (c_up _ (proj1 (sub_closed pts faces m sf M R))); eauto. Qed.
Lemma ins_sib p i j : p <> [] -> ins (p ++ [i]) -> j < 4 -> ins (p ++ [j]).
Proof. intros N H L. eapply (c_sib _ (proj1 (sub_closed pts faces m sf M R))); eauto. Qed.
Lemma supp_lt a i : a < 4 -> In i (order (supports e a)) -> i < nd2 e.
Proof.
  intros La H. apply (Permutation_in _ (PO _)) in H. rewrite (supports_sn e a Hcont La) in H. apply in_map_iff in H. destruct H as [l [<- Hl]].
  apply in_seq in Hl. apply sn_lt; auto. lia.
Qed.
(** the entry for the vertex [v] on the half [c] of side [a] of the cell [q] *)
Definition the_entry (q : path) (a c v : nat) (x : entry_h) : Prop :=
  pos0 e v = None /\ exists l, l < ns e /\ pos1 e ((a + c) mod 4) v = Some (sn e a l) /\
  x = (dofn s (q ++ [(a + c) mod 4]) (sn e a l),
       (map (dofn s q) (order (supports e a)), map (fun i => fi e i (coord (r_store (ref2 e)) v)) (order (supports e a)))).
Lemma vertex_run q a c v H x : ins q -> ins (q ++ [x]) -> a < 4 -> c < 2 -> In v (rvertices (rhalf e a c)) ->
  exists H', hang_vertex order e m s (side m q a) a c (map (dofn s q) (order (supports e a))) H v = Ok H' /\ adds (the_entry q a c v) H H'.
Proof.
  intros Sq Sx La Lc Hv. unfold hang_vertex. destruct (pos0 e v) as [i|] eqn:E0.
  - exists H. split; auto. apply adds_none. intros y [E _]. congruence.
  - rewrite (map_res_ok _ (fun i => fi e i (coord (r_store (ref2 e)) v))) by (intros i Hi; apply phi2_fi; eapply supp_lt; eauto). cbn [bind].
    pose proof (insub_here _ _ _ Sq) as Hq. pose proof (path_nonempty q Hq) as Nq. pose proof (insub_here _ _ _ Sx) as Hx.
    destruct (s_fam m I q x Nq Hx) as [Lx F]. destruct (s_kids m I q a Nq (F a La)) as [-> _].
    assert (EC : hcell (he (hp m) (if c =? 0 then side m (q ++ [a]) a else side m (q ++ [(a + 1) mod 4]) a)) = Some (q ++ [(a + c) mod 4])).
    { destruct c as [|[|c]]; [| |lia]; cbn [Nat.eqb].
      - destruct (side_good I (q ++ [a]) a (F a La) La) as [_ [-> _]]. rewrite Nat.add_0_r, Nat.mod_small by auto. auto.
      - destruct (side_good I (q ++ [(a + 1) mod 4]) a (F _ (m4_lt _)) La) as [_ [-> _]]. auto. }
    rewrite EC. destruct (hang_v e a c v Hcont La Lc Hv E0) as [l [Ll [E1 _]]]. rewrite E1.
    assert (Sc : ins (q ++ [(a + c) mod 4])) by (eapply ins_sib; eauto).
    rewrite (dof_of_slot _ _ _ _ (slot_dofn _ _ Sc (sn_lt e a l Hcont La Ll))). cbn [bind]. eexists. split; [reflexivity|].
    eapply adds_ext; [|apply adds_dset]. intro y. split.
    + intros ->. split; auto. exists l. auto.
    + intros [_ [l' [_ [E1' ->]]]]. assert (sn e a l' = sn e a l) by congruence. congruence.
Qed.
Lemma neighbor_run q a H x : ins q -> ins (q ++ [x]) -> a < 4 ->
  exists H', hang_neighbor order e m s (side m q a) q H = Ok H' /\ adds (fun y => exists c v, c < 2 /\ In v (rvertices (rhalf e a c)) /\ the_entry q a c v y) H H'.
Proof.
  intros Sq Sx La. unfold hang_neighbor. rewrite (sides_idx pts faces m M q a (insub_here _ _ _ Sq) La).
  rewrite (map_res_ok _ (dofn s q)) by (intros i Hi; apply dof_of_slot; apply slot_dofn; auto; eapply supp_lt; eauto). cbn [bind].
  destruct (fold_adds (fun H c => fold_res (hang_vertex order e m s (side m q a) a c (map (dofn s q) (order (supports e a)))) (rvertices (rhalf e a c)) H)
     (fun c y => exists v, In v (rvertices (rhalf e a c)) /\ the_entry q a c v y) [0; 1]) with (H := H) as [H' [E A]].
  - intros c K Hc. apply (fold_adds _ (fun v y => the_entry q a c v y)). intros v K' Hv. eapply vertex_run; eauto. cbn in Hc. lia.
  - exists H'. split; auto. eapply adds_ext; [|exact A]. intro y. split.
    + intros [c [Hc [v [Hv P]]]]. exists c, v. split; auto. cbn in Hc. lia.
    + intros [c [v [Hc [Hv P]]]]. exists c. split; [cbn; lia|]. exists v. auto.
Qed.
(** all entries *)
Definition prod (y : entry_h) : Prop :=
  exists p k q j x c v, sub_leaf (cells m) sf p /\ nb adj p k q j /\ ins q /\ ins (q ++ [x]) /\ c < 2 /\ In v (rvertices (rhalf e j c)) /\ the_entry q j c v y.
Lemma side_run p k H : sub_leaf (cells m) sf p -> k < 4 ->
  exists H', hang_side order e m s sf H (side m p k) = Ok H' /\
    adds (fun y => exists q j x c v, nb adj p k q j /\ ins q /\ ins (q ++ [x]) /\ c < 2 /\ In v (rvertices (rhalf e j c)) /\ the_entry q j c v y) H H'.
Proof.
  intros Lp Lk. assert (Hp : here m p) by (destruct Lp as [n [F _]]; apply here_fget; eauto). unfold hang_side, get_neighbors.
  destruct (T (hp m) (side m p k)) as [t|] eqn:ET.
  - destruct (twin_side I p k t Hp Lk ET) as [q [j [Hq [Lj [-> ET']]]]]. destruct (side_good I q j Hq Lj) as [_ [-> _]].
    assert (N : nb adj p k q j) by (apply (twin_iff pts faces m QF M); auto).
    assert (U : forall q' j', here m q' -> nb adj p k q' j' -> q' = q /\ j' = j).
    { intros q' j' Hq' N'. destruct (nb_lt pts faces m QF M _ _ _ _ N') as [_ Lj'].
      assert (E : T (hp m) (side m p k) = Some (side m q' j')) by (apply (twin_iff pts faces m QF M); auto). rewrite ET in E. injection E as E.
      destruct (QuadInv.side_inj I q q' j j' Hq Hq' Lj Lj' E). auto. }
    pose proof (path_nonempty q Hq) as Nq.
    assert (G : exists r, (match sf with None => Ok (Some q) | Some g => Ok (if marked_at (cells m) q g then Some q else None) end) = @Ok (option path) r /\
                 ((r = None /\ ~ ins q) \/ (r = Some q /\ ins q))).
    { clear - Hq. destruct sf as [g|].
      - pose proof (insub_marked (cells m) g q) as IM. destruct (marked_at (cells m) q g); [exists (Some q)|exists None]; (split; [reflexivity|]); [right|left]; (split; [reflexivity|]); rewrite IM; [reflexivity|discriminate].
      - exists (Some q). split; auto. right. split; auto. apply insub_None; auto. }
    destruct G as [r [-> [[-> NS]|[-> Sq]]]]; cbn [bind].
    + exists H. split; auto. apply adds_none. intros y [q' [j' [x [c [v [N' [Sq' _]]]]]]]. destruct (U q' j' (insub_here _ _ _ Sq') N') as [-> ->]. contradiction.
    + destruct (cell_has_children m q sf) eqn:HC.
      * destruct (proj1 (cell_kids_sub m q sf Nq) HC) as [x Sx]. destruct (neighbor_run q j H x Sq Sx Lj) as [H' [E A]]. exists H'. split; auto.
        eapply adds_ext; [|exact A]. intro y. split.
        -- intros [c [v [Lc [Hv P]]]]. exists q, j, x, c, v. auto 8.
        -- intros [q' [j' [x' [c [v [N' [Sq' [_ [Lc [Hv P]]]]]]]]]]. destruct (U q' j' (insub_here _ _ _ Sq') N') as [-> ->]. exists c, v. auto.
      * exists H. split; auto. apply adds_none. intros y [q' [j' [x [c [v [N' [Sq' [Sx _]]]]]]]]. destruct (U q' j' (insub_here _ _ _ Sq') N') as [-> ->].
        assert (X : cell_has_children m q sf = true) by (apply cell_kids_sub; eauto). congruence.
  - exists H. split; auto. apply adds_none. intros y [q' [j' [x [c [v [N' [Sq' _]]]]]]]. pose proof (insub_here _ _ _ Sq') as Hq'.
    destruct (nb_lt pts faces m QF M _ _ _ _ N') as [_ Lj']. assert (E : T (hp m) (side m p k) = Some (side m q' j')) by (apply (twin_iff pts faces m QF M); auto). congruence.
Qed.
Lemma set_run : exists H, set_hanging order e m s sf = Ok (Some H) /\ (forall y, In y H -> prod y) /\ (forall y, prod y -> In (fst y) (map fst H)).
Proof.
  unfold set_hanging. rewrite Hcont.
  assert (LV : forall p, In p (map fst (fget_leaves (cells m) None sf BreadthFirst)) <-> sub_leaf (cells m) sf p).
  { intros p. rewrite in_map_iff. split.
    - intros [[p' n] [E Ip]]. cbn [fst] in E. subst p'. apply in_fget_leaves in Ip. exists n. tauto.
    - intros [n [F H]]. exists (p, n). split; auto. apply in_fget_leaves. simpl. tauto. }
  destruct (fold_adds (hang_cell order e m s sf) (fun p y => exists k q j x c v, nb adj p k q j /\ ins q /\ ins (q ++ [x]) /\ c < 2 /\ In v (rvertices (rhalf e j c)) /\ the_entry q j c v y)
     (map fst (fget_leaves (cells m) None sf BreadthFirst))) with (H := @nil entry_h) as [H [E [A [B _]]]].
  - intros p K Hp. apply LV in Hp. assert (Hh : here m p) by (destruct Hp as [n [F _]]; apply here_fget; eauto).
    unfold hang_cell. rewrite (sides_here pts faces m M p Hh).
    destruct (fold_adds (hang_side order e m s sf) (fun h y => exists k, k < 4 /\ h = side m p k /\ exists q j x c v, nb adj p k q j /\ ins q /\ ins (q ++ [x]) /\ c < 2 /\ In v (rvertices (rhalf e j c)) /\ the_entry q j c v y)
       (map (side m p) [0; 1; 2; 3])) with (H := K) as [H' [E A]].
    + intros h K' Hk. apply in_map_iff in Hk. destruct Hk as [k [<- Hk]]. assert (Lk : k < 4) by (cbn in Hk; lia).
      destruct (side_run p k K' Hp Lk) as [H' [E A]]. exists H'. split; auto. eapply adds_ext; [|exact A]. intro y. split.
      * intro P. exists k. auto.
      * intros [k' [Lk' [Ek P]]]. apply (QuadInv.side_inj I) in Ek; auto. destruct Ek as [_ ->]. auto.
    + exists H'. split; auto. eapply adds_ext; [|exact A]. intro y. split.
      * intros [h [_ [k [_ [_ P]]]]]. exists k. auto.
      * intros [k [q [j [x [c [v [N P]]]]]]]. destruct (nb_lt pts faces m QF M _ _ _ _ N) as [Lk _]. exists (side m p k).
        split; [apply in_map; cbn; lia|]. exists k. split; auto. split; auto. exists q, j, x, c, v. auto.
  - exists H. split; [rewrite E; reflexivity|]. split.
    + intros y Hy. destruct (A y Hy) as [[]|[p [Hp P]]]. apply LV in Hp. destruct P as [k [q [j [x [c [v P]]]]]]. exists p, k, q, j, x, c, v. auto.
    + intros y [p [k [q [j [x [c [v [Hp P]]]]]]]]. apply B. exists p. split; [apply LV; auto|]. exists k, q, j, x, c, v. auto.
Qed.
End run.

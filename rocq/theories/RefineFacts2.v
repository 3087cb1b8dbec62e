(** Forest.refine as a whole (C09-C11). *)
From Coq Require Import List Arith Bool Lia Permutation.
Import ListNotations.
From Verif Require Import Tree Forest SpecForest TreeFacts ForestFacts LabelFacts RootFacts PlaceFacts RefineFacts.

Lemma selb_fl {A} rf nl (n : node A) : distinct rf nl -> (selb rf nl n = true <-> fl_ok rf n).
Proof.
  intro D. unfold selb, fl_ok. destruct rf as [r|]; [|tauto]. rewrite is_marked_some.
  destruct nl as [l|]; [|rewrite orb_false_r; tauto].
  destruct (Nat.eqb_spec r l) as [->|]; [exfalso; apply (D l l); auto|rewrite orb_false_r; tauto].
Qed.

Lemma base_rooted {A} (f : forest A) sf : submesh_rooted (base f sf) sf.
Proof. destruct sf; simpl; auto. apply root_subtrees_rooted. Qed.
Lemma base_same {A} (f : forest A) sf (E : path -> flag -> Prop) : (forall p g, sf = Some g -> E p g) -> same_but E f (base f sf).
Proof.
  intro H. destruct sf as [s|]; [|apply same_but_refl].
  eapply same_but_weaken; [|apply root_subtrees_same]. intros p g Hg. unfold only_flag in Hg. subst; auto.
Qed.

Lemma present_some {A} (f : forest A) p : present f p = true <-> exists n, fget f p = Some n.
Proof. unfold present. destruct (fget f p); split; intro H; eauto; try discriminate. destruct H; discriminate. Qed.

Lemma refine_inv {A} kid sf rf nl clean (f f' : forest A) :
  refine kid sf rf nl clean f = Ok f' ->
  exists f2, fold_res (refine_step kid sf rf nl clean) (map fst (fget_leaves (base f sf) None sf BreadthFirst)) (base f sf) = Ok f2
    /\ f' = base f2 nl.
Proof.
  unfold refine. intro E. fold (base f sf) in E.
  destruct (fold_res (refine_step kid sf rf nl clean) (map fst (fget_leaves (base f sf) None sf BreadthFirst)) (base f sf)) as [f2|] eqn:E2;
    simpl in E; [|discriminate].
  exists f2. split; auto. destruct nl; simpl; congruence.
Qed.

Lemma refine_total {A} kid sf rf nl clean (f : forest A) :
  (forall p n, fget f p = Some n -> m_regular (n_meta n) = true) ->
  exists f', refine kid sf rf nl clean f = Ok f'.
Proof.
  intro H. unfold refine. fold (base f sf).
  destruct (@refine_fold_total A kid sf rf nl clean (map fst (fget_leaves (base f sf) None sf BreadthFirst)) (base f sf)) as [f2 E2].
  - apply fget_leaves_nodup.
  - apply leaves_antichain, base_rooted.
  - intros p Hp. apply leaf_present in Hp. destruct Hp as [n [En _]].
    destruct (@refine_leaf_total A kid sf rf nl clean n) as [n' El].
    + pose proof (base_same f sf (fun _ _ => True) (fun _ _ _ => I) p) as S. rewrite En in S.
      destruct (fget f p) as [m|] eqn:Em; [|tauto]. destruct S as [S _]. unfold core in S.
      injection S as _ _ _ _ S _ _. rewrite <- S. eapply H; eauto.
    + exists n, n'. auto.
  - rewrite E2. simpl. eauto.
Qed.

(** objects *)
Lemma refine_present {A} kid sf rf nl clean (f f' : forest A) x : distinct rf nl ->
  refine kid sf rf nl clean f = Ok f' ->
  (present f' x = true <->
   present f x = true \/
   exists p n i, selected (base f sf) sf rf p /\ fget f p = Some n /\
     has_children n None = false /\ i < n_children n /\ x = p ++ [i]).
Proof.
  intros D E. destruct (refine_inv _ _ _ _ _ _ _ E) as [f2 [E2 ->]].
  assert (S1 : same_but (fun _ _ => True) f (base f sf)) by (apply base_same; auto).
  assert (S2 : same_but (fun _ _ => True) f2 (base f2 nl)) by (apply base_same; auto).
  rewrite <- (same_but_present _ S2). rewrite (@loop_present A kid sf rf nl clean (base f sf) f2 (base_rooted f sf) E2 x).
  rewrite (same_but_present x S1).
  assert (K : forall p n n', fget f p = Some n -> fget (base f sf) p = Some n' ->
     has_children n None = has_children n' None /\ n_children n = n_children n').
  { intros p n n' En En'. specialize (S1 p). rewrite En, En' in S1. destruct S1 as [S1 _].
    unfold core in S1. injection S1 as _ _ _ _ _ _ S1. split; [rewrite <- !has_children_shape, S1; auto|].
    unfold n_children. rewrite <- (map_length (fun o => match o with Some _ => true | None => false end) (n_slots n)).
    unfold slot_shape in S1. rewrite S1. apply map_length. }
  split; (intros [H|H]; [left; auto|right]).
  - destruct H as [p [n [i [En [Ln [Hs [Hc [Hi Hx]]]]]]]].
    assert (Hm : exists m, fget f p = Some m).
    { apply present_some. rewrite (same_but_present p S1). apply present_some; eauto. }
    destruct Hm as [m Em]. destruct (K _ _ _ Em En) as [K1 K2].
    exists p, m, i. rewrite K1, K2. repeat split; auto.
    exists n. split; auto. split; auto. eapply selb_fl; eauto.
  - destruct H as [p [m [i [[n [En [Ln Hs]]] [Em [Hc [Hi Hx]]]]]]].
    destruct (K _ _ _ Em En) as [K1 K2].
    exists p, n, i. rewrite <- K1, <- K2. repeat split; auto; try apply Ln. eapply selb_fl; eauto.
Qed.

(** labels before the final rooting *)
Lemma loop_marks {A} kid sf rf nl clean (f f2 : forest A) x g : distinct rf nl -> submesh_rooted f sf ->
  fold_res (refine_step kid sf rf nl clean) (map fst (fget_leaves f None sf BreadthFirst)) f = Ok f2 ->
  (marked_at f2 x g = true <->
   (marked_at f x g = true /\ ~ (clean = true /\ rf = Some g /\ selected f sf rf x)) \/
   (sub_leaf f sf x /\ nl = Some g) \/
   (exists p i, selected f sf rf p /\ x = p ++ [i] /\ present f2 x = true /\ lab_of sf nl = Some g)).
Proof.
  intros D HR E. rewrite (@loop_marked A kid sf rf nl clean f f2 HR E).
  assert (SP : forall p, selp sf rf nl f p <-> selected f sf rf p).
  { intro p. split; intros [n [En [Ln Hs]]]; exists n; (split; [auto|split; [auto|]]); eapply selb_fl; eauto. }
  assert (NL : forall n, fget f x = Some n -> is_leaf_of sf n ->
     (mem_flag g (newlabels rf nl clean (selb rf nl n) (labels n)) = true <->
      (has_label g n = true /\ ~ (clean = true /\ rf = Some g /\ selb rf nl n = true)) \/ nl = Some g)).
  { intros n En Ln. unfold newlabels, has_label.
    set (l1 := match nl with Some h => add_flag h (labels n) | None => labels n end).
    assert (M1 : mem_flag g l1 = true <-> mem_flag g (labels n) = true \/ nl = Some g).
    { unfold l1. destruct nl as [h|].
      - rewrite mem_add, orb_true_iff. rewrite Nat.eqb_eq. split; (intros [H|H]; first [left; congruence|right; congruence]).
      - split; [auto|intros [H|H]; [auto|discriminate]]. }
    destruct rf as [r|].
    - destruct (selb (Some r) nl n && clean) eqn:Eb.
      + apply andb_true_iff in Eb. destruct Eb as [Eb ->]. rewrite mem_del, andb_true_iff, M1, negb_true_iff, Nat.eqb_neq.
        split.
        * intros [H1 [H2|H2]]; auto. left. split; auto. intros [_ [H3 _]]. congruence.
        * intros [[H1 H2]|H2].
          -- split; auto. intros ->. apply H2; auto.
          -- split; auto. intros ->. apply (D r r); auto.
      + rewrite M1. apply andb_false_iff in Eb. split; [|tauto].
        intros [H|H]; auto. left; split; auto. intros [H1 [H2 H3]]. destruct Eb; congruence.
    - rewrite M1. split; [|tauto]. intros [H|H]; auto. left; split; auto. intros [_ [H1 _]]; discriminate. }
  split.
  - intros [[n [En [Ln H]]]|[[H1 H2]|[p [i [H1 H2]]]]].
    + apply (NL n En Ln) in H. destruct H as [[H1 H2]|H].
      * left. split.
        -- rewrite <- (is_marked_at _ _ g En), is_marked_some; auto.
        -- intros [A1 [A2 A3]]. apply H2. repeat split; auto. apply SP in A3. destruct A3 as [m [Em [_ Hm]]]. congruence.
      * right; left. split; auto. exists n; auto.
    + left. split; auto. intros [_ [_ H]]. apply H1. destruct H as [n [En [Ln _]]]. exists n; auto.
    + right; right. exists p, i. split; [apply SP; auto|auto].
  - intros [[H1 H2]|[[[n [En Ln]] H2]|[p [i [H1 H2]]]]].
    + destruct (leafp_dec sf f x) as [[p [Hp Hx]]|Hn].
      * assert (Hd : leafp sf f x \/ ~ leafp sf f x).
        { destruct (list_eq_dec Nat.eq_dec p x) as [->|Hne]; [left; auto|right].
          intro Hl. apply Hne. apply (leafp_anti HR); auto. }
        destruct Hd as [[n [En Ln]]|Hd]; [|right; left; auto].
        left. exists n. split; auto. split; auto. apply (NL n En Ln). left. split.
        -- rewrite <- is_marked_some. rewrite (is_marked_at _ _ g En); auto.
        -- intros [A1 [A2 A3]]. apply H2. repeat split; auto. apply SP. exists n; auto.
      * right; left. split; auto. intro Hl. apply (Hn x Hl), prefix_refl.
    + left. exists n. split; auto. split; auto. apply (NL n En Ln). auto.
    + right; right. exists p, i. split; [apply SP; auto|auto].
Qed.

(** stored attributes of the objects that existed before *)
Lemma core_body {A} (n n' : node A) : core n = core n' -> body n = body n'.
Proof.
  unfold core, body. intro C. injection C as C1 C2 C3 C4 C5 C6 C7. rewrite C2, C3, C4, C5, C6.
  unfold slot_shape in C7. apply (f_equal (@length bool)) in C7. rewrite !map_length in C7. rewrite C7. auto.
Qed.
Lemma core_lab_child {A} o (n : node A) : core (lab_child o n) = core n.
Proof. destruct o; simpl; auto. apply core_mark_here. Qed.

Lemma loop_body {A} kid sf rf nl clean (f f2 : forest A) x n : submesh_rooted f sf ->
  fold_res (refine_step kid sf rf nl clean) (map fst (fget_leaves f None sf BreadthFirst)) f = Ok f2 ->
  fget f x = Some n ->
  exists n', fget f2 x = Some n' /\ body n' = body n /\
    (~ (selp sf rf nl f x /\ has_children n None = false) -> core n' = core n).
Proof.
  intros HR E En. destruct (leafp_dec sf f x) as [[p [Hp [r ->]]]|Hx].
  - pose proof (leafp_nonnil Hp) as Hnn. destruct Hp as [m [Em Lm]].
    destruct (@loop_leaf A kid sf rf nl clean f f2 HR E p m Em Lm) as [m' [El Em']].
    destruct (refine_leaf_spec _ _ _ _ _ _ El) as [_ [B1 [B2 [B3 [B4 [B5 [S1 [S2 S3]]]]]]]].
    destruct p as [|y p]; [tauto|]. rewrite fget_app, Em in En. rewrite fget_app, Em'.
    destruct r as [|i r].
    + simpl in *. injection En as <-. exists m'. split; auto. split.
      { unfold body. rewrite B1, B2, B3, B4, B5. f_equal. destruct (selb rf nl m) eqn:Es.
        - destruct (has_children m None) eqn:Eh.
          + destruct (S2 eq_refl eq_refl) as [_ T2]. rewrite T2, map_length; auto.
          + destruct (S3 eq_refl eq_refl) as [_ [_ T3]]. rewrite T3, map_length, seq_length; auto.
        - destruct (S1 eq_refl) as [T1 _]. rewrite T1; auto. }
      intro Hns. destruct (selb rf nl m) eqn:Es.
      * destruct (has_children m None) eqn:Eh.
        -- destruct (S2 eq_refl eq_refl) as [T1 T2]. unfold core. rewrite T1, T2, B1, B2, B3, B4, B5.
           assert (Hss : slot_shape (map (option_map (lab_child (lab_of sf nl))) (n_slots m)) = slot_shape (n_slots m)).
           { unfold slot_shape. rewrite map_map. apply map_ext. intros [k|]; auto. }
           rewrite Hss; auto.
        -- exfalso. apply Hns. rewrite app_nil_r. split; auto. exists m; auto.
      * destruct (S1 eq_refl) as [T1 T2]. unfold core. rewrite T1, T2, B1, B2, B3, B4, B5. auto.
    + simpl in En. destruct (nth_error (n_slots m) i) as [[k|]|] eqn:Ei; try discriminate.
      assert (Eh : has_children m None = true) by (apply has_children_fl; exists i, k; split; [auto|exact I]).
      simpl. destruct (selb rf nl m) eqn:Es.
      * destruct (S2 eq_refl Eh) as [_ T]. rewrite T, nth_error_map, Ei. simpl.
        destruct r as [|j r].
        -- simpl in *. injection En as <-. eexists; split; [reflexivity|]. rewrite (core_body _ k) by apply core_lab_child.
           split; auto. intros _. apply core_lab_child.
        -- exists n. split; [|auto]. unfold lab_child. destruct (lab_of sf nl); auto.
           simpl in *. rewrite slots_mark_here; auto.
      * destruct (S1 eq_refl) as [T _]. rewrite T, Ei. exists n; auto.
  - assert (O : fobs f2 x = fobs f x).
    { apply (@loop_other A kid sf rf nl clean f f2 HR E). intros p m Em Lm. apply Hx. exists m; auto. }
    apply fobs_inv in O. rewrite En in O. destruct (fget f2 x) as [n'|] eqn:E'; [|tauto].
    exists n'. split; auto. destruct O as [O1 O2]. assert (core n' = core n) by (destruct O1; auto).
    split; auto. apply core_body; auto.
Qed.

Lemma same_get {A} (f f' : forest A) (E : path -> flag -> Prop) p n : same_but E f f' -> fget f p = Some n ->
  exists n', fget f' p = Some n' /\ core n' = core n.
Proof. intros S En. specialize (S p). rewrite En in S. destruct (fget f' p); [|tauto]. exists n0; split; auto. symmetry; tauto. Qed.

Lemma core_slots {A} (n n' : node A) : core n = core n' ->
  has_children n None = has_children n' None /\ n_children n = n_children n'.
Proof.
  intro C. unfold core in C. injection C as _ _ _ _ _ _ C.
  split; [rewrite <- !has_children_shape, C; auto|].
  unfold n_children. rewrite <- (map_length (fun o => match o with Some _ => true | None => false end) (n_slots n)).
  unfold slot_shape in C. rewrite C. apply map_length.
Qed.

Lemma refine_body {A} kid sf rf nl clean (f f' : forest A) x n : distinct rf nl ->
  refine kid sf rf nl clean f = Ok f' -> fget f x = Some n ->
  exists n', fget f' x = Some n' /\ body n' = body n /\
    (~ (selected (base f sf) sf rf x /\ has_children n None = false) -> core n' = core n).
Proof.
  intros D E En. destruct (refine_inv _ _ _ _ _ _ _ E) as [f2 [E2 ->]].
  destruct (@same_get A f (base f sf) (fun _ _ => True) x n) as [n1 [E1 C1]]; [apply base_same; auto|auto|].
  destruct (@loop_body A kid sf rf nl clean (base f sf) f2 x n1) as [n2 [En2 [B2 C2]]]; auto using base_rooted.
  destruct (@same_get A f2 (base f2 nl) (fun _ _ => True) x n2) as [n3 [E3 C3]]; [apply base_same; auto|auto|].
  exists n3. split; auto. split.
  - rewrite (core_body _ _ C3), B2. apply core_body; auto.
  - intro H. rewrite C3, C2; auto. intros [[m [Em [Lm Hs]]] Hc]. apply H. split.
    + exists m. split; auto. split; auto. eapply selb_fl; eauto.
    + destruct (core_slots _ _ C1) as [<- _]; auto.
Qed.

Lemma loop_new {A} kid sf rf nl clean (f f2 : forest A) p n i : submesh_rooted f sf ->
  fold_res (refine_step kid sf rf nl clean) (map fst (fget_leaves f None sf BreadthFirst)) f = Ok f2 ->
  selp sf rf nl f p -> fget f p = Some n -> has_children n None = false -> i < n_children n ->
  exists c, fget f2 (p ++ [i]) = Some c /\ is_new_child kid n i c.
Proof.
  intros HR E [m [Em [Lm Hs]]] En Hc Hi. assert (m = n) by congruence. subst m.
  destruct (@loop_leaf A kid sf rf nl clean f f2 HR E p n En Lm) as [n' [El En']].
  destruct (refine_leaf_spec _ _ _ _ _ _ El) as [_ [_ [_ [_ [_ [_ [_ [_ S3]]]]]]]].
  destruct (S3 Hs Hc) as [_ [_ T]].
  assert (p <> []) by (intros ->; discriminate).
  rewrite fget_snoc, En', T, nth_map_seq by auto. apply Nat.ltb_lt in Hi. rewrite Hi.
  eexists. split; [reflexivity|]. unfold is_new_child, lab_child, new_child.
  destruct (lab_of sf nl); simpl; rewrite repeat_length; repeat split; auto; intros j k Hj;
    eapply nth_repeat_none; eauto.
Qed.

Lemma core_new_child {A} kid (n : node A) i c c' : core c = core c' -> is_new_child kid n i c -> is_new_child kid n i c'.
Proof.
  intros C H. pose proof (core_slots _ _ C) as [_ CL]. unfold n_children in CL.
  unfold core in C. injection C as C1 C2 C3 C4 C5 C6 C7. unfold is_new_child in *.
  rewrite <- C1, <- C2, <- C3, <- C4, <- C5, <- C6, <- CL. repeat (split; [tauto|]).
  destruct H as [_ [_ [_ [_ [_ [_ [_ H]]]]]]]. intros j k Hj.
  assert (Hb : nth_error (slot_shape (n_slots c')) j = Some true) by (unfold slot_shape; rewrite nth_error_map, Hj; auto).
  rewrite <- C7 in Hb. unfold slot_shape in Hb. rewrite nth_error_map in Hb.
  destruct (nth_error (n_slots c) j) as [[k'|]|] eqn:Ej; try discriminate. eapply H; eauto.
Qed.

Lemma refine_new {A} kid sf rf nl clean (f f' : forest A) p n i : distinct rf nl ->
  refine kid sf rf nl clean f = Ok f' ->
  selected (base f sf) sf rf p -> fget f p = Some n -> has_children n None = false -> i < n_children n ->
  exists c, fget f' (p ++ [i]) = Some c /\ is_new_child kid n i c.
Proof.
  intros D E Hs En Hc Hi. destruct (refine_inv _ _ _ _ _ _ _ E) as [f2 [E2 ->]].
  destruct (@same_get A f (base f sf) (fun _ _ => True) p n) as [n1 [E1 C1]]; [apply base_same; auto|auto|].
  destruct (core_slots _ _ C1) as [K1 K2].
  destruct (@loop_new A kid sf rf nl clean (base f sf) f2 p n1 i) as [c [Ec Hn]]; auto using base_rooted; try congruence.
  { destruct Hs as [m [Em [Lm Hm]]]. exists m. split; auto. split; auto. eapply selb_fl; eauto. }
  destruct (@same_get A f2 (base f2 nl) (fun _ _ => True) (p ++ [i]) c) as [c' [E3 C3]]; [apply base_same; auto|auto|].
  exists c'. split; auto. apply (core_new_child kid n i c c'); auto.
  unfold is_new_child in *. pose proof (core_body _ _ C1) as B. unfold body in B. injection B as B1 B2 B3 B4 B5 B6.
  rewrite <- B1, <- B2, <- B5, <- B6. exact Hn.
Qed.

(** ** the refined submesh *)
Definition refined {A} (f1 f2 : forest A) (sf rf : option flag) (x : path) : Prop :=
  in_sub f1 sf x \/ exists p i, selected f1 sf rf p /\ x = p ++ [i] /\ present f2 x = true.

Lemma in_sub_present {A} (f : forest A) sf x : in_sub f sf x -> present f x = true.
Proof. intros [n [E _]]. apply present_some; eauto. Qed.
Lemma in_sub_some {A} (f : forest A) s x : in_sub f (Some s) x <-> marked_at f x s = true.
Proof.
  unfold in_sub, marked_at. split.
  - intros [n [-> H]]; auto.
  - destruct (fget f x) as [n|]; [|discriminate]. intro H; exists n; auto.
Qed.
Lemma in_sub_none {A} (f : forest A) x : in_sub f None x <-> present f x = true.
Proof. rewrite present_some. split; intros [n H]; exists n; tauto || (split; [auto|exact I]). Qed.
Lemma sub_leaf_in {A} (f : forest A) sf x : sub_leaf f sf x -> in_sub f sf x.
Proof. intros [n [E [H _]]]. exists n; auto. Qed.
Lemma selected_leaf {A} (f : forest A) sf rf x : selected f sf rf x -> sub_leaf f sf x.
Proof. intros [n [E [H _]]]. exists n; auto. Qed.
Lemma sub_leaf_iff {A} (f : forest A) sf x :
  sub_leaf f sf x <-> in_sub f sf x /\ forall i, ~ in_sub f sf (x ++ [i]).
Proof.
  split.
  - intros [n [E [H1 H2]]]. split; [exists n; auto|]. intros i [k [Ek Hk]].
    assert (x <> []) by (intros ->; discriminate). rewrite fget_snoc, E in Ek by auto.
    destruct (nth_error (n_slots n) i) as [[c|]|] eqn:Ei; try discriminate. injection Ek as ->. eapply H2; eauto.
  - intros [[n [E H]] H2]. exists n. split; auto. split; auto. intros i k Ei Hk. apply (H2 i). exists k. split; auto.
    assert (x <> []) by (intros ->; discriminate). rewrite fget_snoc, E by auto. rewrite Ei; auto.
Qed.
Lemma in_sub_up {A} (f : forest A) sf a i r : submesh_rooted f sf -> a <> [] -> in_sub f sf (a ++ i :: r) -> in_sub f sf a.
Proof.
  intros HR Ha H. destruct sf as [s|].
  - rewrite in_sub_some in *. destruct HR as [_ [H2 _]]. eapply H2; eauto.
  - rewrite in_sub_none in *. eapply present_parent; eauto.
Qed.

Lemma child_inj (p q : path) i j : p ++ [i] = q ++ [j] -> p = q /\ i = j.
Proof. apply app_inj_tail. Qed.

Section Refined.
Context {A : Type}.
Variables (f1 f2 : forest A) (sf rf : option flag).
Hypothesis HR : submesh_rooted f1 sf.
Hypothesis HP : forall x, present f2 x = true <-> present f1 x = true \/
  exists p n i, selected f1 sf rf p /\ fget f1 p = Some n /\ has_children n None = false /\ i < n_children n /\ x = p ++ [i].

Lemma sel_nonnil p : selected f1 sf rf p -> p <> [].
Proof. intros [n [E _]] ->. discriminate. Qed.

Lemma refined_present x : refined f1 f2 sf rf x -> present f2 x = true.
Proof. intros [H|[p [i [_ [_ H]]]]]; auto. apply HP. left. eapply in_sub_present; eauto. Qed.

(** children of a leaf are not in the submesh, nor is anything below *)
Lemma leaf_no_below p i r : sub_leaf f1 sf p -> ~ in_sub f1 sf (p ++ i :: r).
Proof.
  intros Hp H. apply sub_leaf_iff in Hp. destruct Hp as [Hp1 Hp2].
  assert (p <> []) by (intros ->; destruct Hp1 as [n [E _]]; discriminate).
  apply (Hp2 i). destruct r as [|j r]; auto.
  apply (@in_sub_up A f1 sf (p ++ [i]) j r HR); [destruct p; discriminate|]. rewrite <- app_assoc; auto.
Qed.

Lemma refined_closed : closed_set f2 (refined f1 f2 sf rf).
Proof.
  split; [|split].
  - intros i H. left. apply HP in H. destruct H as [H|[p [n [j [Hs [_ [_ [_ E]]]]]]]].
    + destruct sf as [s|]; [|apply in_sub_none; auto]. apply in_sub_some. apply HR; auto.
    + exfalso. apply sel_nonnil in Hs. destruct p as [|y p]; [tauto|]. injection E as _ E. destruct p; discriminate.
  - intros a i r Ha [H|[p [j [Hs [E H]]]]]; left.
    + eapply in_sub_up; eauto.
    + assert (Hor : a = p \/ exists k r', p = a ++ k :: r').
      { destruct (@prefix_linear a p (p ++ [j])) as [[r' E']|[r' E']].
        - exists (i :: r); auto.
        - apply prefix_app.
        - destruct r' as [|k r']; [rewrite app_nil_r in E'; auto|right; exists k, r'; auto].
        - destruct r' as [|k r']; [rewrite app_nil_r in E'; auto|].
          exfalso. apply (f_equal (@length nat)) in E, E'. rewrite !app_length in *. simpl in *. lia. }
      apply selected_leaf, sub_leaf_in in Hs. destruct Hor as [->|[k [r' ->]]]; auto. eapply in_sub_up; eauto.
  - intros a i j Ha [H|[p [k [Hs [E H]]]]] Hj.
    + left. apply HP in Hj. destruct Hj as [Hj|[p [n [k [Hs [_ [_ [_ E]]]]]]]].
      * destruct sf as [s|]; [|apply in_sub_none; auto]. rewrite in_sub_some in *.
        destruct HR as [_ [_ H3]]. eapply H3; eauto.
      * exfalso. apply child_inj in E. destruct E as [-> _]. apply selected_leaf in Hs. eapply leaf_no_below; eauto.
    + apply child_inj in E. destruct E as [-> _]. right. exists p, j; auto.
Qed.

(** the leaves of the refined submesh *)
Lemma refined_leaf x : (forall p n, selected f1 sf rf p -> fget f1 p = Some n -> 0 < n_children n) ->
  ((refined f1 f2 sf rf x /\ forall i, ~ refined f1 f2 sf rf (x ++ [i])) <->
   (sub_leaf f1 sf x /\ ~ selected f1 sf rf x) \/
   exists p i, selected f1 sf rf p /\ x = p ++ [i] /\ present f2 x = true).
Proof.
  intro HK. split.
  - intros [[H|H] H2]; [|auto]. left. split.
    + apply sub_leaf_iff. split; auto. intros i Hi. apply (H2 i). left; auto.
    + intro Hs. pose proof Hs as [n [En _]]. pose proof (sel_nonnil _ Hs) as Hx.
      destruct (has_children n None) eqn:Eh.
      * apply has_children_fl in Eh. destruct Eh as [i [k [Ei _]]]. apply (H2 i). right. exists x, i.
        split; auto. split; auto. apply HP. left. apply present_some. exists k. rewrite fget_snoc, En, Ei; auto.
      * apply (H2 0). right. exists x, 0. split; auto. split; auto. apply HP. right.
        exists x, n, 0. repeat split; auto. eapply HK; eauto.
  - intros [[H1 H2]|[p [i [Hs [-> H]]]]].
    + split; [left; apply sub_leaf_in; auto|]. intros i [Hi|[p [j [Hs [E _]]]]].
      * apply sub_leaf_iff in H1. destruct H1 as [_ H1]. eapply H1; eauto.
      * apply child_inj in E. destruct E as [-> _]. auto.
    + split; [right; exists p, i; auto|]. intros j [Hj|[q [k [Hq [E _]]]]].
      * rewrite <- app_assoc in Hj. simpl in Hj. apply selected_leaf in Hs. eapply leaf_no_below; eauto.
      * apply child_inj in E. destruct E as [<- _]. apply selected_leaf in Hs, Hq. apply sub_leaf_in in Hq.
        eapply leaf_no_below; eauto.
Qed.
End Refined.

(** ** labels after refine *)
Lemma base_marked {A} (f : forest A) sf x g : sf <> Some g -> marked_at (base f sf) x g = marked_at f x g.
Proof.
  intro H. destruct sf as [s|]; auto. symmetry. eapply same_but_marked; [apply root_subtrees_same|].
  unfold only_flag. congruence.
Qed.

Lemma refine_other {A} kid sf rf nl clean (f f' : forest A) x g : distinct rf nl ->
  refine kid sf rf nl clean f = Ok f' -> sf <> Some g -> nl <> Some g ->
  (marked_at f' x g = true <->
   marked_at f x g = true /\ ~ (clean = true /\ rf = Some g /\ selected (base f sf) sf rf x)).
Proof.
  intros D E H1 H2. destruct (refine_inv _ _ _ _ _ _ _ E) as [f2 [E2 ->]].
  rewrite base_marked by auto. rewrite (@loop_marks A kid sf rf nl clean (base f sf) f2 x g D (base_rooted f sf) E2).
  rewrite base_marked by auto. split.
  - intros [H|[[_ H]|[p [i [_ [_ [_ H]]]]]]]; auto; exfalso.
    unfold lab_of in H. destruct nl; auto.
  - auto.
Qed.

(** the old submesh label is untouched when a different new label is given *)
Lemma refine_old {A} kid s rf l clean (f f' : forest A) x : distinct rf (Some l) -> rf <> Some s -> s <> l ->
  refine kid (Some s) rf (Some l) clean f = Ok f' ->
  marked_at f' x s = marked_at (base f (Some s)) x s.
Proof.
  intros D H1 H2 E. destruct (refine_inv _ _ _ _ _ _ _ E) as [f2 [E2 ->]].
  rewrite (base_marked f2 (Some l)) by congruence.
  pose proof (@loop_marks A kid _ rf (Some l) clean _ f2 x s D (base_rooted f (Some s)) E2) as M.
  destruct (marked_at (base f (Some s)) x s) eqn:Eb.
  - apply M. left. split; auto. intros [_ [H _]]. auto.
  - destruct (marked_at f2 x s) eqn:E3; auto. destruct M as [M _]. destruct (M eq_refl) as [[H _]|[[_ H]|[p [i [_ [_ [_ H]]]]]]].
    + congruence.
    + congruence.
    + simpl in H. congruence.
Qed.

Lemma refine_present' {A} kid sf rf nl clean (f f' : forest A) : distinct rf nl ->
  refine kid sf rf nl clean f = Ok f' -> forall x,
  present f' x = true <-> present (base f sf) x = true \/
  exists p n i, selected (base f sf) sf rf p /\ fget (base f sf) p = Some n /\ has_children n None = false /\ i < n_children n /\ x = p ++ [i].
Proof.
  intros D E x. rewrite (@refine_present A kid sf rf nl clean f f' x D E).
  assert (S1 : same_but (fun _ _ => True) f (base f sf)) by (apply base_same; auto).
  rewrite (same_but_present x S1). split; (intros [H|H]; [left; auto|right]).
  - destruct H as [p [n [i [H1 [H2 [H3 [H4 H5]]]]]]]. destruct (same_get _ _ _ _ _ S1 H2) as [n1 [E1 C1]].
    destruct (core_slots _ _ C1) as [K1 K2]. exists p, n1, i. rewrite K1, K2. auto 10.
  - destruct H as [p [n [i [H1 [H2 [H3 [H4 H5]]]]]]]. destruct (same_get _ _ _ _ _ (same_but_sym S1) H2) as [n1 [E1 C1]].
    destruct (core_slots _ _ C1) as [K1 K2]. exists p, n1, i. rewrite K1, K2. auto 10.
Qed.

Lemma refine_sub {A} kid sf rf nl clean (f f' : forest A) :
  distinct rf nl -> distinct rf sf -> distinct sf nl -> fresh f nl ->
  refine kid sf rf nl clean f = Ok f' ->
  forall x, in_sub f' (lab_of sf nl) x <-> refined (base f sf) f' sf rf x.
Proof.
  intros D1 D2 D3 FR E. pose proof (@refine_present' A kid sf rf nl clean f f' D1 E) as HP.
  pose proof (base_rooted f sf) as HR.
  pose proof (refined_closed (base f sf) f' sf rf HR HP) as HC.
  destruct (refine_inv _ _ _ _ _ _ _ E) as [f2 [E2 Ef']].
  pose proof (fun x g => @loop_marks A kid sf rf nl clean (base f sf) f2 x g D1 HR E2) as M.
  assert (S2 : same_but (fun _ _ => True) f2 f') by (subst f'; apply base_same; auto).
  destruct nl as [l|]; cbn [lab_of].
  - assert (ML : forall x, marked_at f2 x l = true <-> sub_leaf (base f sf) sf x \/
       exists p i, selected (base f sf) sf rf p /\ x = p ++ [i] /\ present f' x = true).
    { intro x. rewrite M. rewrite base_marked by (intro H; subst; apply (D3 l l); auto).
      rewrite (FR l x eq_refl). split.
      - intros [[H _]|[[H _]|[p [i [H1 [H2 [H3 _]]]]]]]; [discriminate|auto|right; exists p, i; rewrite <- (same_but_present x S2); auto].
      - intros [H|[p [i [H1 [H2 H3]]]]]; [auto|right; right; exists p, i; rewrite (same_but_present x S2); auto]. }
    intro x. rewrite in_sub_some. simpl in Ef'. split.
    + intro H. rewrite Ef' in H.
      apply (@root_subtrees_least A l f2 (refined (base f sf) f' sf rf)) in H; auto.
      * destruct HC as [C1 [C2 C3]]. split; [|split]; intros *; rewrite ?(same_but_present _ S2); eauto.
      * intros p Hp. apply ML in Hp. destruct Hp as [Hp|Hp]; [left; apply sub_leaf_in; auto|right; auto].
    + intros [[n [En Hn]]|H].
      * rewrite Ef'. assert (Hx : x <> []) by (intros ->; discriminate).
        destruct (@leaf_below A (base f sf) sf x n Hx En Hn) as [r [c [Ec Lc]]].
        assert (Hm : marked_at f2 (x ++ r) l = true) by (apply ML; left; exists c; auto).
        destruct r as [|i r].
        -- rewrite app_nil_r in Hm. apply root_subtrees_mono; auto.
        -- eapply root_subtrees_complete; [exact Hm| |left; reflexivity|].
           ++ apply in_ancestors. split; auto. eauto.
           ++ rewrite (same_but_present _ S2). apply HP. left. apply present_some; eauto.
      * rewrite Ef'. apply root_subtrees_mono. apply ML. auto.
  - simpl in Ef'. subst f'. destruct sf as [s|]; cbn [lab_of].
    + intro x. rewrite in_sub_some. rewrite M. unfold refined. rewrite in_sub_some. split.
      * intros [[H _]|[[_ H]|[p [i [H1 [H2 [H3 _]]]]]]]; [auto|discriminate|right; exists p, i; auto].
      * intros [H|[p [i [H1 [H2 H3]]]]].
        -- left. split; auto. intros [_ [H1 _]]. apply (D2 s s); auto.
        -- right; right. exists p, i; auto.
    + intro x. rewrite in_sub_none. split.
      * intro H. apply HP in H. destruct H as [H|[p [n [i [H1 [H2 [H3 [H4 H5]]]]]]]].
        -- left. apply in_sub_none; auto.
        -- right. exists p, i. split; auto. split; auto. apply HP. right. exists p, n, i; auto 10.
      * intros [H|[p [i [_ [_ H]]]]]; auto. apply HP. left. apply in_sub_none; auto.
Qed.

Lemma refine_sub_leaf {A} kid sf rf nl clean (f f' : forest A) :
  distinct rf nl -> distinct rf sf -> distinct sf nl -> fresh f nl ->
  (forall p n, selected (base f sf) sf rf p -> fget f p = Some n -> 0 < n_children n) ->
  refine kid sf rf nl clean f = Ok f' ->
  forall x, sub_leaf f' (lab_of sf nl) x <->
    (sub_leaf (base f sf) sf x /\ ~ selected (base f sf) sf rf x) \/
    exists p i, selected (base f sf) sf rf p /\ x = p ++ [i] /\ present f' x = true.
Proof.
  intros D1 D2 D3 FR HK E x. pose proof (@refine_sub A kid sf rf nl clean f f' D1 D2 D3 FR E) as HS.
  rewrite sub_leaf_iff. rewrite <- (refined_leaf (base f sf) f' sf rf (base_rooted f sf) (@refine_present' A kid sf rf nl clean f f' D1 E)).
  - rewrite HS. split; intros [H1 H2]; (split; [auto|]); intros i Hi; apply (H2 i); apply HS; auto.
  - intros p n Hp En. assert (S1 : same_but (fun _ _ => True) f (base f sf)) by (apply base_same; auto).
    destruct (same_get _ _ _ _ _ (same_but_sym S1) En) as [n1 [E1 C1]].
    destruct (core_slots _ _ C1) as [K1 K2]. rewrite <- K2. eapply HK; eauto.
Qed.

Lemma refine_rooted {A} kid sf rf nl clean (f f' : forest A) :
  distinct rf nl -> distinct rf sf -> distinct sf nl -> fresh f nl ->
  refine kid sf rf nl clean f = Ok f' -> submesh_rooted f' (lab_of sf nl).
Proof.
  intros D1 D2 D3 FR E. pose proof (@refine_sub A kid sf rf nl clean f f' D1 D2 D3 FR E) as HS.
  pose proof (refined_closed (base f sf) f' sf rf (base_rooted f sf) (@refine_present' A kid sf rf nl clean f f' D1 E)) as [C1 [C2 C3]].
  destruct (lab_of sf nl) as [l|]; simpl; auto.
  assert (HS' : forall x, marked_at f' x l = true <-> refined (base f sf) f' sf rf x) by (intro x; rewrite <- in_sub_some; auto).
  split; [|split].
  - intros i H. apply HS'; auto.
  - intros a i r Ha H. apply HS'. apply HS' in H. eapply C2; eauto.
  - intros a i j Ha H Hj. apply HS'. apply HS' in H. eapply C3; eauto.
Qed.

(** ** uniform refinement *)
Lemma uniform_refine {A} kid k clean (f f' : forest A) : uniform k f ->
  refine kid None None None clean f = Ok f' -> uniform k f'.
Proof.
  intros HU E x n En.
  assert (D : distinct None None) by (intros a b H; discriminate).
  assert (P : present f' x = true) by (apply present_some; eauto).
  apply (@refine_present A kid None None None clean f f' x D E) in P.
  destruct P as [P|[p [m [i [Hs [Em [Hc [Hi ->]]]]]]]].
  - apply present_some in P. destruct P as [m Em].
    destruct (@refine_body A kid None None None clean f f' x m D E Em) as [n' [En' [B _]]].
    assert (n' = n) by congruence. subst n'. unfold body in B. injection B as _ _ _ B4 _ B6.
    destruct (HU x m Em) as [U1 U2]. unfold n_children in *. split; congruence.
  - destruct (@refine_new A kid None None None clean f f' p m i D E Hs Em Hc Hi) as [c [Ec Hn]].
    assert (c = n) by congruence. subst c. destruct Hn as [_ [_ [_ [_ [N1 [_ [N2 _]]]]]]].
    split; auto. unfold n_children in *. rewrite N2. apply (HU p m Em).
Qed.

Lemma uniform_leaves {A} kid k clean (f f' : forest A) : 0 < k -> uniform k f ->
  refine kid None None None clean f = Ok f' ->
  forall x, sub_leaf f' None x <-> exists p i, sub_leaf f None p /\ i < k /\ x = p ++ [i].
Proof.
  intros Hk HU E x. assert (D : distinct None None) by (intros a b H; discriminate).
  assert (FR : fresh f None) by (intros l p H; discriminate).
  assert (HK : forall p n, selected (base f None) None None p -> fget f p = Some n -> 0 < n_children n).
  { intros p n _ En. destruct (HU p n En) as [_ ->]; auto. }
  pose proof (@refine_sub_leaf A kid None None None clean f f' D D D FR HK E x) as L. cbn [lab_of base] in L.
  assert (SS : forall p, selected f None None p <-> sub_leaf f None p).
  { intro p. split; intros [n H]; exists n; intuition. exact I. }
  rewrite L. split.
  - intros [[H1 H2]|[p [i [H1 [-> H2]]]]]; [exfalso; apply H2, SS; auto|]. exists p, i. split; [apply SS; auto|].
    split; auto. apply (@refine_present A kid None None None clean f f' _ D E) in H2.
    assert (NC : forall n, fget f p = Some n -> has_children n None = false).
    { intros n En. destruct H1 as [m [Em [[_ Lm] _]]]. assert (m = n) by congruence. subst m. rewrite has_children_false; auto. }
    assert (Hp : p <> []) by (intros ->; destruct H1 as [n [En _]]; discriminate).
    destruct H2 as [H2|[q [n [j [_ [En [_ [Hj Eq]]]]]]]].
    + exfalso. apply present_some in H2. destruct H2 as [c Ec]. rewrite fget_snoc in Ec by auto.
      destruct (fget f p) as [n|] eqn:En; [|discriminate]. specialize (NC n eq_refl).
      rewrite has_children_false in NC. destruct (nth_error (n_slots n) i) as [[c'|]|] eqn:Ei; try discriminate.
      eapply NC; eauto. exact I.
    + apply child_inj in Eq. destruct Eq as [<- <-]. destruct (HU p n En) as [_ U]. congruence.
  - intros [p [i [H1 [H2 ->]]]]. right. exists p, i. split; [apply SS; auto|]. split; auto.
    pose proof H1 as [n [En [_ Ln]]].
    apply (@refine_present A kid None None None clean f f' _ D E). right. exists p, n, i.
    split; [apply SS; auto|]. split; auto. split; [rewrite has_children_false; auto|].
    split; auto. destruct (HU p n En) as [_ U]. congruence.
Qed.

Lemma in_leaves_sub {A} (f : forest A) sf md x :
  In x (map fst (fget_leaves f None sf md)) <-> sub_leaf f sf x.
Proof.
  rewrite in_map_iff. split.
  - intros [[q n] [E H]]. simpl in E; subst q. apply in_fget_leaves in H. exists n; tauto.
  - intros [n [H1 H2]]. exists (x, n). split; auto. apply in_fget_leaves. simpl; auto.
Qed.

Lemma uniform_perm {A} kid k clean (f f' : forest A) md : 0 < k -> uniform k f ->
  refine kid None None None clean f = Ok f' ->
  Permutation (map fst (fget_leaves f' None None md))
    (flat_map (fun p => map (fun i => p ++ [i]) (seq 0 k)) (map fst (fget_leaves f None None md))).
Proof.
  intros Hk HU E. apply NoDup_Permutation.
  - apply fget_leaves_nodup.
  - apply nodup_flat_map.
    + apply fget_leaves_nodup.
    + intros p _. apply FinFun.Injective_map_NoDup; [|apply seq_NoDup]. intros i j H. apply child_inj in H. tauto.
    + intros p q z Hp Hq H1 H2. apply in_map_iff in H1, H2. destruct H1 as [i [<- _]], H2 as [j [H2 _]].
      apply child_inj in H2. destruct H2; auto.
  - intro x. rewrite in_leaves_sub, (uniform_leaves kid k clean f f' Hk HU E), in_flat_map. split.
    + intros [p [i [H1 [H2 ->]]]]. exists p. split; [apply in_leaves_sub; auto|]. apply in_map_iff. exists i. split; auto.
      apply in_seq. lia.
    + intros [p [H1 H2]]. apply in_map_iff in H2. destruct H2 as [i [<- Hi]]. exists p, i.
      split; [apply in_leaves_sub in H1; auto|]. apply in_seq in Hi. split; auto. lia.
Qed.

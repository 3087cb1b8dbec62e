(** Data of children, regularity and complete families are invariant under
    every history of plain operations (used by C16, C19-C22). *)
From Coq Require Import List Arith Bool Lia.
Import ListNotations.
From Verif Require Import Tree Forest SpecForest TreeFacts ForestFacts LabelFacts RootFacts History PlaceFacts.
Set Implicit Arguments.

Section Gen.
Context {A : Type}.
Variable kid : nat -> nat -> A -> A.

Inductive Gen : node A -> Prop :=
| Gen_intro n :
    m_regular (n_meta n) = true ->
    (forall i j k, nth_error (n_slots n) i = Some (Some k) -> nth_error (n_slots n) j <> Some None) ->
    (forall i k, nth_error (n_slots n) i = Some (Some k) ->
       n_data k = kid i (n_children n) (n_data n) /\ n_children k = n_children n /\ Gen k) ->
    Gen n.
Lemma Gen_inv n : Gen n ->
    m_regular (n_meta n) = true /\
    (forall i j k, nth_error (n_slots n) i = Some (Some k) -> nth_error (n_slots n) j <> Some None) /\
    (forall i k, nth_error (n_slots n) i = Some (Some k) ->
       n_data k = kid i (n_children n) (n_data n) /\ n_children k = n_children n /\ Gen k).
Proof. intro H; inversion H; subst; auto. Qed.

Definition fgen (f : forest A) : Prop := forall i t, nth_error f i = Some t -> Gen t.

Lemma Gen_nget n r k : Gen n -> nget n r = Some k -> Gen k.
Proof.
  revert n; induction r as [|i r IH]; intros n H E; simpl in E; [injection E as <-; auto|].
  destruct (nth_error (n_slots n) i) as [[c|]|] eqn:Ei; try discriminate.
  apply Gen_inv in H. destruct H as [_ [_ H]]. destruct (H i c Ei) as [_ [_ G]]. eauto.
Qed.
Lemma fgen_fget f p n : fgen f -> fget f p = Some n -> Gen n.
Proof.
  intros H E. destruct p as [|i r]; [discriminate|]. simpl in E.
  destruct (nth_error f i) as [t|] eqn:Et; [|discriminate]. eapply Gen_nget; eauto.
Qed.

Definition sim (n n' : node A) : Prop := n_data n' = n_data n /\ n_children n' = n_children n.
Definition good (h : node A -> node A) : Prop := forall n, Gen n -> sim n (h n) /\ Gen (h n).

Lemma good_sim_reg n n' : Gen n -> sim n n' -> m_regular (n_meta n') = m_regular (n_meta n) ->
  n_slots n' = n_slots n -> Gen n'.
Proof.
  intros H [E1 E2] E3 E4. apply Gen_inv in H. destruct H as [H1 [H2 H3]].
  constructor; rewrite ?E3, ?E4; auto. rewrite E1, E2; auto.
Qed.
Lemma good_mark s : good (mark_here s).
Proof. intros n H. destruct n as [m d ks]. split; [split; auto|]. eapply good_sim_reg; [exact H| | |]; auto; split; auto. Qed.
Lemma good_unmark s : good (unmark_here s).
Proof.
  intros n H. destruct n as [m d ks]. destruct s; (split; [split; auto|]);
    (eapply good_sim_reg; [exact H| | |]; auto; split; auto).
Qed.
Lemma map_kids_gen n (h : node A -> node A) :
  (forall i k, nth_error (n_slots n) i = Some (Some k) -> Gen k -> sim k (h k) /\ Gen (h k)) ->
  Gen n -> sim n (map_kids h n) /\ Gen (map_kids h n).
Proof.
  intros Hh H. destruct n as [m d ks]. apply Gen_inv in H. destruct H as [H1 [H2 H3]]. cbn [n_meta n_slots n_data] in *.
  assert (L : length (map (fun o => match o with Some k => Some (h k) | None => None end) ks) = length ks)
    by apply map_length.
  split; [split; auto|].
  assert (N : forall i k, nth_error (map (fun o => match o with Some k => Some (h k) | None => None end) ks) i = Some (Some k) ->
     exists k0, nth_error ks i = Some (Some k0) /\ k = h k0).
  { intros i k E. rewrite nth_error_map in E. destruct (nth_error ks i) as [[k0|]|]; try discriminate.
    injection E as <-. eauto. }
  constructor; cbn [n_meta n_slots n_data map_kids]; auto.
  - intros i j k Ei Ej. destruct (N _ _ Ei) as [k0 [E0 _]]. rewrite nth_error_map in Ej.
    destruct (nth_error ks j) as [[k1|]|] eqn:E1; try discriminate. eapply H2; eauto.
  - intros i k Ei. destruct (N _ _ Ei) as [k0 [E0 ->]]. destruct (H3 i k0 E0) as [D1 [D2 D3]].
    destruct (Hh i k0 E0 D3) as [[S1 S2] G]. unfold n_children in *. cbn [n_slots] in *. rewrite L. split; [congruence|]. split; [congruence|auto].
Qed.
Lemma good_map_kids h : good h -> good (map_kids h).
Proof. intros Hh n H. apply map_kids_gen; auto. Qed.
Lemma good_mark_rec s : good (mark_rec s).
Proof.
  intro n. induction n as [m d ks IH] using node_ind'. intro H.
  pose proof (@map_kids_gen (Node m d ks) (mark_rec s)) as M. cbn [n_slots] in M. specialize (M IH H).
  destruct M as [M1 M2]. destruct (good_mark s M2) as [M3 M4].
  split; [split; [reflexivity|unfold n_children; simpl; apply map_length]|exact M4].
Qed.
Lemma good_unmark_rec s : good (unmark_rec s).
Proof.
  intro n. induction n as [m d ks IH] using node_ind'. intro H.
  pose proof (@map_kids_gen (Node m d ks) (unmark_rec s)) as M. cbn [n_slots] in M. specialize (M IH H).
  destruct M as [M1 M2]. destruct (good_unmark s M2) as [M3 M4].
  split; [split; [reflexivity|unfold n_children; simpl; apply map_length]|].
  destruct s; exact M4.
Qed.

Lemma Gen_leafy m d k : m_regular m = true -> Gen (Node m d (repeat None k)).
Proof.
  intro H. constructor; auto; simpl; intros; exfalso; eapply nth_repeat_none; eauto.
Qed.
Lemma good_split n n' : split kid n = Ok n' -> Gen n -> sim n n' /\ Gen n'.
Proof.
  intros E H. apply Gen_inv in H. destruct H as [H1 [H2 H3]]. destruct n as [m d ks].
  cbn [n_meta n_slots n_data] in *. unfold split in E. rewrite H1 in E. injection E as <-.
  split; [split; [reflexivity|unfold n_children; simpl; rewrite map_length, seq_length; auto]|].
  constructor; cbn [n_meta n_slots n_data].
  - destruct ks; auto. destruct (promote_fields m) as [_ [_ [_ [_ [P _]]]]]. congruence.
  - intros i j k _ E. rewrite nth_map_seq in E. destruct (j <? length ks); discriminate.
  - intros i k E. rewrite nth_map_seq in E. destruct (i <? length ks); [|discriminate]. injection E as <-.
    unfold n_children, new_child. cbn [n_slots n_data]. rewrite map_length, seq_length, repeat_length.
    split; auto. split; auto. apply Gen_leafy; auto.
Qed.
Lemma good_delete : good (@delete_children A).
Proof.
  intros n H. destruct n as [m d ks]. unfold delete_children.
  destruct (demote_spec (Node m d (map (fun _ => None) ks))) as [D1 [D2 [_ [_ [_ [_ [D7 _]]]]]]].
  set (n' := demote _) in *. cbn [n_slots n_data n_meta] in *.
  split; [split; [exact D2|unfold n_children; rewrite D1; simpl; apply map_length]|].
  apply Gen_inv in H. destruct H as [H1 _]. cbn [n_meta] in H1.
  constructor; [congruence| |]; rewrite D1; intros i; intros;
    match goal with K : nth_error (map _ ks) i = Some (Some _) |- _ =>
      rewrite nth_error_map in K; destruct (nth_error ks i); discriminate end.
Qed.
Lemma good_coarsen sf cf nl clean : good (coarsen sf cf nl clean).
Proof.
  intro n. induction n as [m d ks IH] using node_ind'. intro H. cbn [coarsen].
  destruct (match sf with Some _ => negb (is_marked (Node m d ks) sf) | None => false end); [split; [split|]; auto|].
  set (n1 := match nl with Some l => mark_here l (Node m d ks) | None => Node m d ks end).
  assert (H1 : sim (Node m d ks) n1 /\ Gen n1).
  { unfold n1. destruct nl; [apply good_mark; auto|split; [split|]; auto]. }
  assert (Hs : n_slots n1 = ks) by (unfold n1; destruct nl; auto).
  assert (T : forall a b c, sim a b -> sim b c -> sim a c) by (unfold sim; intuition congruence).
  destruct H1 as [S1 G1].
  destruct (coarsen_here (Node m d ks) sf cf).
  - set (n2 := match nl with Some _ => n1 | None => match sf with Some _ => map_kids (unmark_here sf) n1
                 | None => delete_children n1 end end).
    assert (H2 : sim n1 n2 /\ Gen n2).
    { unfold n2. destruct nl; [split; [split|]; auto|]. destruct sf.
      - apply good_map_kids; auto. apply good_unmark.
      - apply good_delete; auto. }
    destruct H2 as [S2 G2].
    destruct cf as [c|]; [|split; eauto]. destruct clean; [|split; eauto].
    destruct (good_unmark (Some c) G2). split; eauto.
  - destruct (has_children n1 sf); [|split; auto].
    assert (E : Node (n_meta n1) (n_data n1) (map (fun o => match o with
       | Some k => Some (coarsen sf cf nl clean k) | None => None end) ks) = map_kids (coarsen sf cf nl clean) n1).
    { destruct n1 as [m1 d1 ks1]. simpl in Hs. subst ks1. reflexivity. }
    rewrite E. destruct (@map_kids_gen n1 (coarsen sf cf nl clean)); auto.
    + intros i k Ei. rewrite Hs in Ei. eapply IH; eauto.
    + split; eauto.
Qed.
Lemma good_refine_leaf sf rf nl clean n n' : refine_leaf kid sf rf nl clean n = Ok n' -> Gen n -> sim n n' /\ Gen n'.
Proof.
  unfold refine_leaf. intros E H.
  assert (T : forall a b c, sim a b -> sim b c -> sim a c) by (unfold sim; intuition congruence).
  set (n1 := match nl with Some l => mark_here l n | None => n end) in *.
  assert (H1 : sim n n1 /\ Gen n1) by (unfold n1; destruct nl; [apply good_mark; auto|split; [split|]; auto]).
  destruct H1 as [S1 G1].
  destruct (match rf with Some _ => negb (is_marked n1 rf) | None => false end).
  - injection E as <-; auto.
  - assert (G : forall n2, sim n1 n2 -> Gen n2 ->
       let n3 := (match rf with Some _ => if clean then unmark_here rf (label_kids sf nl n2) else label_kids sf nl n2
                            | None => label_kids sf nl n2 end) in sim n n3 /\ Gen n3).
    { intros n2 S2 G2. assert (H3 : sim n2 (label_kids sf nl n2) /\ Gen (label_kids sf nl n2)).
      { unfold label_kids. destruct nl; [|destruct sf; [|split; [split|]; auto]]; apply good_map_kids; auto;
          apply good_mark; auto. }
      destruct H3 as [S3 G3]. cbv zeta.
      destruct rf as [c|]; [|split; eauto]. destruct clean; [|split; eauto].
      destruct (good_unmark (Some c) G3). split; eauto. }
    destruct (has_children n1 None); simpl in E.
    + injection E as <-. apply G; auto. split; auto.
    + destruct (split kid n1) as [n2|] eqn:Es; simpl in E; [|discriminate].
      injection E as <-. destruct (good_split Es G1). apply G; auto.
Qed.

Lemma Gen_nupd p (g : node A -> node A) n :
  (forall k, nget n p = Some k -> Gen k -> sim k (g k) /\ Gen (g k)) ->
  Gen n -> sim n (nupd p g n) /\ Gen (nupd p g n).
Proof.
  revert n. induction p as [|i p IH]; intros n Hg H; [apply Hg; auto|].
  destruct n as [m d ks]. simpl.
  destruct (nth_error ks i) as [[k|]|] eqn:E; [|split; [split|]; auto|split; [split|]; auto].
  apply Gen_inv in H. destruct H as [H1 [H2 H3]]. cbn [n_meta n_slots n_data] in *.
  assert (L : i < length ks) by (apply nth_error_Some; congruence).
  split; [split; [reflexivity|unfold n_children; simpl; apply set_nth_length]|].
  destruct (H3 i k E) as [D1 [D2 D3]].
  destruct (IH k) as [[S1 S2] G]; auto. { intros k' Ek. apply Hg. simpl. rewrite E; auto. }
  constructor; cbn [n_meta n_slots n_data]; auto.
  - intros a b c _ Eb. destruct (Nat.eq_dec i b) as [->|N].
    + rewrite nth_set_nth_eq in Eb by auto. discriminate.
    + rewrite nth_set_nth_neq in Eb by auto. eapply H2; eauto.
  - intros a c Ea. unfold n_children in *. cbn [n_slots] in *. rewrite set_nth_length.
    destruct (Nat.eq_dec i a) as [->|N].
    + rewrite nth_set_nth_eq in Ea by auto. injection Ea as <-. split; [congruence|split; [congruence|auto]].
    + rewrite nth_set_nth_neq in Ea by auto. auto.
Qed.
Lemma fgen_fupd p g f : (forall k, fget f p = Some k -> Gen k -> sim k (g k) /\ Gen (g k)) -> fgen f -> fgen (fupd p g f).
Proof.
  intros Hg H. destruct p as [|i p]; [exact H|]. simpl in *.
  destruct (nth_error f i) as [t|] eqn:Et; [|exact H].
  intros j u E. destruct (Nat.eq_dec i j) as [->|N].
  - rewrite nth_set_nth_eq in E by (apply nth_error_Some; congruence). injection E as <-.
    apply Gen_nupd; auto. eauto.
  - rewrite nth_set_nth_neq in E by auto. eauto.
Qed.
Lemma fgen_map h f : good h -> fgen f -> fgen (map h f).
Proof.
  intros Hh H i t E. rewrite nth_error_map in E. destruct (nth_error f i) as [u|] eqn:Eu; [|discriminate].
  injection E as <-. apply Hh. eauto.
Qed.
Lemma fgen_app f t : fgen f -> Gen t -> fgen (f ++ [t]).
Proof.
  intros H Ht i u E. destruct (Nat.lt_ge_cases i (length f)) as [L|L].
  - rewrite nth_error_app1 in E by auto; eauto.
  - rewrite nth_error_app2 in E by auto. destruct (i - length f) as [|x]; simpl in E; [|destruct x; discriminate].
    injection E as <-. auto.
Qed.
Lemma fgen_fold {X} (h : X -> path) (g : X -> node A -> node A) l f :
  (forall x, good (g x)) -> fgen f -> fgen (fold_left (fun f x => fupd (h x) (g x) f) l f).
Proof.
  intro Hg. revert f. induction l as [|x l IH]; intros f H; simpl; auto. apply IH. apply fgen_fupd; auto.
  intros; apply Hg; auto.
Qed.
Lemma fgen_root_subtrees s f : fgen f -> fgen (root_subtrees s f).
Proof.
  intro H. unfold root_subtrees.
  assert (G : forall l f, fgen f -> fgen (fold_left (root_one s) l f)).
  { induction l as [|i l IH]; intros g Hg; simpl; auto. apply IH. unfold root_one.
    assert (H1 : fgen (fupd [i] (mark_here s) g)) by (apply fgen_fupd; auto; intros; apply good_mark; auto).
    destruct (nth_error (fupd [i] (mark_here s) g) i) as [t|]; auto.
    generalize (map fst (traverse [i] t None DepthFirst)). generalize dependent (fupd [i] (mark_here s) g).
    clear. intros g Hg l. revert g Hg. induction l as [|p l IH]; intros g Hg; simpl; auto.
    apply IH. unfold root_step. destruct (marked_at g p s); auto.
    apply (@fgen_fold path (fun a => a) (fun _ => mark_self_and_kids s)); auto. intros _ n Hn. unfold mark_self_and_kids.
    destruct (good_mark s Hn) as [[S1 S2] G1]. destruct (@good_map_kids (mark_here s) (good_mark s) _ G1) as [[S3 S4] G2].
    split; [split; congruence|auto]. }
  apply G; auto.
Qed.
Lemma fgen_refine sf rf nl clean f f' : refine kid sf rf nl clean f = Ok f' -> fgen f -> fgen f'.
Proof.
  unfold refine. intros E H.
  assert (H1 : fgen (match sf with Some s => root_subtrees s f | None => f end)) by (destruct sf; auto; apply fgen_root_subtrees; auto).
  generalize dependent (match sf with Some s => root_subtrees s f | None => f end). intros f1 E H1.
  destruct (fold_res _ _ f1) as [f2|] eqn:E2; simpl in E; [|discriminate]. injection E as <-.
  assert (H2 : fgen f2).
  { revert E2 H1. generalize (map fst (fget_leaves f1 None sf BreadthFirst)). intro l. clear H. revert f1.
    induction l as [|p l IH]; intros g E2 H1; simpl in E2; [injection E2 as <-; auto|].
    unfold refine_step in E2 at 1. destruct (fget g p) as [n|] eqn:En; [|discriminate]. simpl in E2.
    destruct (refine_leaf kid sf rf nl clean n) as [n'|] eqn:El; simpl in E2; [|discriminate].
    apply IH in E2; auto. apply fgen_fupd; auto. intros k Ek HP.
    rewrite En in Ek. injection Ek as <-. eapply good_refine_leaf; eauto. }
  destruct nl; auto. apply fgen_root_subtrees; auto.
Qed.
Lemma fgen_at_node p g f f' : (forall n n', g n = Ok n' -> Gen n -> sim n n' /\ Gen n') ->
  at_node p g f = Ok f' -> fgen f -> fgen f'.
Proof.
  unfold at_node. intros Hg E H. destruct (fget f p) as [n|] eqn:En; [|discriminate].
  destruct (g n) as [n'|] eqn:Eg; simpl in E; [|discriminate]. injection E as <-.
  apply fgen_fupd; auto. intros k Ek HP. rewrite En in Ek. injection Ek as <-. eauto.
Qed.
Lemma step_gen f o f' : plain o -> step kid f o = Ok f' -> fgen f -> fgen f'.
Proof.
  intros P E H. destruct o; simpl in E, P; try tauto.
  - injection E as <-. apply fgen_app; auto. apply Gen_leafy; auto.
  - unfold remove_tree in E. destruct (length f - 1 <? length f) eqn:L; [|discriminate].
    injection E as <-. intros i t E. rewrite del_nth_spec in E. destruct (i <? length f - 1); eauto.
  - eapply fgen_at_node; eauto. apply good_split.
  - eapply fgen_at_node; eauto. intros n n' En. injection En as <-. apply good_delete.
  - eapply fgen_at_node; eauto. intros n n' En. injection En as <-. apply good_mark.
  - eapply fgen_at_node; eauto. intros n n' En. injection En as <-. apply good_unmark.
  - eapply fgen_at_node; eauto. intros n n' En. injection En as <-. apply good_mark_rec.
  - eapply fgen_at_node; eauto. intros n n' En. injection En as <-. apply good_unmark_rec.
  - injection E as <-. apply (@fgen_fold path (fun a => a) (fun _ => mark_here g)); auto. intros; apply good_mark.
  - injection E as <-. apply (@fgen_fold path (fun a => a) (fun _ => unmark_here g)); auto. intros; apply good_unmark.
  - injection E as <-. apply fgen_root_subtrees; auto.
  - injection E as <-. apply fgen_map; auto. apply good_mark_rec.
  - eapply fgen_refine; eauto.
  - injection E as <-. unfold fcoarsen. apply fgen_map; [apply good_coarsen|].
    destruct sf; auto. apply fgen_root_subtrees; auto.
Qed.
Lemma run_gen l f f' : Forall plain l -> run kid f l = Ok f' -> fgen f -> fgen f'.
Proof.
  unfold run. intro P. revert f. induction P as [|o l Po P IH]; intros f E H; simpl in E; [injection E as <-; auto|].
  destruct (step kid f o) as [g|] eqn:Eg; simpl in E; [|discriminate]. eapply IH; eauto. eapply step_gen; eauto.
Qed.
Lemma fgen_generated f : fgen f <-> generated kid f.
Proof.
  split.
  - intros H p n E. pose proof (fgen_fget p H E) as G. apply Gen_inv in G. destruct G as [G1 [G2 G3]].
    split; auto. split; auto. intros i k Ei. destruct (G3 i k Ei) as [D1 [D2 _]]. auto.
  - intros H i t Et.
    assert (K : forall n p, fget f p = Some n -> Gen n).
    { induction n as [m d ks IH] using node_ind'. intros p E. destruct (H p _ E) as [H1 [H2 H3]].
      constructor; auto. intros j k Ej. destruct (H3 j k Ej) as [D1 D2]. split; auto. split; auto.
      apply (IH j k Ej (p ++ [j])). rewrite fget_snoc by (intros ->; discriminate).
      rewrite E. cbn [n_slots] in *. rewrite Ej; auto. }
    apply (K t [i]). simpl. rewrite Et. auto.
Qed.
End Gen.

(** Invariance of depth/address/position/type (C06-C08). *)
From Coq Require Import List Arith Bool Lia.
Import ListNotations.
From Verif Require Import Tree Forest SpecForest TreeFacts ForestFacts LabelFacts RootFacts History.
Set Implicit Arguments.

Lemma has_children_shape {A} (n : node A) :
  existsb (fun b => b) (slot_shape (n_slots n)) = has_children n None.
Proof.
  unfold has_children, slot_shape. induction (n_slots n) as [|[k|] l IH]; simpl; auto.
Qed.
Definition etype {A} (root : bool) (n : node A) : ntype :=
  if root then ROOT else if has_children n None then BRANCH else LEAF.

Inductive Placed {A} : bool -> nat -> path -> option nat -> node A -> Prop :=
| Placed_intro root d b pos n :
    m_depth (n_meta n) = d -> m_addr (n_meta n) = b -> m_pos (n_meta n) = pos ->
    m_type (n_meta n) = etype root n ->
    (forall i k, nth_error (n_slots n) i = Some (Some k) -> Placed false (S d) (b ++ [i]) (Some i) k) ->
    Placed root d b pos n.

Lemma Placed_inv {A} root d b pos (n : node A) : Placed root d b pos n ->
    m_depth (n_meta n) = d /\ m_addr (n_meta n) = b /\ m_pos (n_meta n) = pos /\
    m_type (n_meta n) = etype root n /\
    (forall i k, nth_error (n_slots n) i = Some (Some k) -> Placed false (S d) (b ++ [i]) (Some i) k).
Proof. intro H; inversion H; subst; auto. Qed.

Lemma Placed_nget {A} root d b pos (n k : node A) r : Placed root d b pos n -> nget n r = Some k ->
  Placed (match r with [] => root | _ => false end) (d + length r) (b ++ r)
         (match r with [] => pos | _ => Some (last r 0) end) k.
Proof.
  revert root d b pos n. induction r as [|i r IH]; intros root d b pos n H E.
  - simpl in E. injection E as <-. rewrite Nat.add_0_r, app_nil_r; auto.
  - simpl in E. destruct (nth_error (n_slots n) i) as [[c|]|] eqn:Ei; try discriminate.
    apply Placed_inv in H. destruct H as [_ [_ [_ [_ H]]]]. specialize (H i c Ei).
    specialize (IH _ _ _ _ _ H E). simpl length. rewrite Nat.add_succ_r.
    rewrite <- app_assoc in IH. simpl in IH. destruct r; auto.
Qed.

Lemma Placed_placed {A} b pos (t : node A) : Placed true 0 b pos t -> placed b t.
Proof.
  intros H r n E. pose proof (Placed_nget r H E) as P. apply Placed_inv in P.
  destruct P as [P1 [P2 [P3 [P4 _]]]]. split; auto. split; auto. split.
  - rewrite P4. unfold etype, expected_type. destruct r; auto. rewrite has_children_shape; auto.
  - intros i r' ->. rewrite P3. destruct (r' ++ [i]) eqn:E'; [destruct r'; discriminate|].
    rewrite <- E', last_last; auto.
Qed.
Lemma placed_Placed {A} b (t : node A) : placed b t -> Placed true 0 b (m_pos (n_meta t)) t.
Proof.
  intro H.
  assert (G : forall n r, nget t r = Some n ->
     Placed (match r with [] => true | _ => false end) (length r) (b ++ r) (m_pos (n_meta n)) n).
  { induction n as [m d ks IH] using node_ind'; intros r E.
    destruct (H r _ E) as [H1 [H2 [H3 H4]]]. constructor; auto.
    - rewrite H3. unfold expected_type, etype. rewrite has_children_shape. destruct r; auto.
    - intros i k Hi. simpl in Hi.
      assert (E' : nget t (r ++ [i]) = Some k) by (rewrite nget_snoc, E; simpl; rewrite Hi; auto).
      specialize (IH i k Hi (r ++ [i]) E'). rewrite app_length in IH; simpl in IH.
      rewrite Nat.add_1_r in IH. rewrite app_assoc in IH.
      destruct (H (r ++ [i]) k E') as [_ [_ [_ Hp]]]. rewrite (Hp i r eq_refl) in IH.
      destruct (r ++ [i]) eqn:Er; [destruct r; discriminate|auto]. }
  pose proof (G t [] eq_refl) as P. simpl in P. rewrite app_nil_r in P. auto.
Qed.

(** updates *)
Lemma shape_nupd {A} p (g : node A -> node A) n i : slot_shape (n_slots (nupd (i :: p) g n)) = slot_shape (n_slots n).
Proof.
  destruct n as [m d ks]. simpl. destruct (nth_error ks i) as [[k|]|] eqn:E; auto.
  simpl. eapply slot_shape_set; eauto.
Qed.
Lemma has_children_nupd {A} p (g : node A -> node A) n i :
  has_children (nupd (i :: p) g n) None = has_children n None.
Proof. rewrite <- !has_children_shape, shape_nupd; auto. Qed.

Lemma Placed_nupd {A} p (g : node A -> node A) root d b pos (n : node A) :
  (forall k d' b' pos', nget n p = Some k ->
     Placed (match p with [] => root | _ => false end) d' b' pos' k ->
     Placed (match p with [] => root | _ => false end) d' b' pos' (g k)) ->
  Placed root d b pos n -> Placed root d b pos (nupd p g n).
Proof.
  revert root d b pos n. induction p as [|i p IH]; intros root d b pos n Hg H.
  - simpl. apply Hg; auto.
  - apply Placed_inv in H. destruct H as [H1 [H2 [H3 [H4 H5]]]].
    pose proof (has_children_nupd p g n i) as Hc.
    destruct n as [m dd ks]. simpl in *.
    destruct (nth_error ks i) as [[k|]|] eqn:E; [| constructor; auto | constructor; auto].
    constructor; auto.
    + simpl. rewrite H4. unfold etype. rewrite Hc. auto.
    + intros j k'. simpl. destruct (Nat.eq_dec i j) as [->|Hij].
      * rewrite nth_set_nth_eq by (apply nth_error_Some; congruence). intro E'. injection E' as <-.
        apply IH; auto. intros k0 d' b' pos' Ek. destruct p; auto.
      * rewrite nth_set_nth_neq by auto. auto.
Qed.

Lemma fplaced_alt {A} (f : forest A) :
  fplaced f <-> forall i t, nth_error f i = Some t -> Placed true 0 [i] (Some i) t.
Proof.
  split; intros H i t E.
  - destruct (H i t E) as [H1 H2]. apply placed_Placed in H1. rewrite H2 in H1; auto.
  - specialize (H i t E). split; [eapply Placed_placed; eauto|].
    apply Placed_inv in H; tauto.
Qed.

Lemma fplaced_fupd {A} p (g : node A -> node A) (f : forest A) :
  (forall n root d b pos, fget f p = Some n -> Placed root d b pos n -> Placed root d b pos (g n)) ->
  fplaced f -> fplaced (fupd p g f).
Proof.
  rewrite !fplaced_alt. intros Hg H i t E. destruct p as [|j p]; [simpl in E; auto|].
  simpl in *. destruct (nth_error f j) as [u|] eqn:Ej; [|auto].
  destruct (Nat.eq_dec j i) as [->|Hij].
  - rewrite nth_set_nth_eq in E by (apply nth_error_Some; congruence). injection E as <-.
    apply Placed_nupd; auto.
  - rewrite nth_set_nth_neq in E; auto.
Qed.

Lemma same_but_placed {A} E (f f' : forest A) : same_but E f f' -> fplaced f -> fplaced f'.
Proof.
  intros HS H i t' Ei.
  assert (G : forall r n', nget t' r = Some n' -> exists t n, nth_error f i = Some t /\ nget t r = Some n /\ core n = core n').
  { intros r n' E'. specialize (HS (i :: r)). simpl in HS. rewrite Ei, E' in HS.
    destruct (nth_error f i) as [t|] eqn:Et; [|tauto].
    destruct (nget t r) as [n|] eqn:En; [|tauto]. exists t, n. tauto. }
  split.
  - intros r n' E'. destruct (G r n' E') as [t [n [E1 [E2 E3]]]].
    destruct (H i t E1) as [P _]. destruct (P r n E2) as [P1 [P2 [P3 P4]]].
    unfold core in E3. injection E3 as C1 C2 C3 C4 C5 C6 C7.
    rewrite <- C2, <- C3, <- C4, <- C1. repeat split; auto.
    rewrite P3. unfold expected_type. rewrite C7; auto.
  - destruct (G [] t' eq_refl) as [t [n [E1 [E2 E3]]]]. simpl in E2. injection E2 as <-.
    destruct (H i t E1) as [_ P]. unfold core in E3. injection E3 as C1 C2 C3 C4 C5 C6 C7. congruence.
Qed.

(** local operations *)
Lemma Placed_core {A} root d b pos (n n' : node A) :
  Placed root d b pos n -> core n = core n' ->
  (forall i k', nth_error (n_slots n') i = Some (Some k') ->
     exists k, nth_error (n_slots n) i = Some (Some k) /\
       forall d b pos, Placed false d b pos k -> Placed false d b pos k') ->
  Placed root d b pos n'.
Proof.
  intros H C Hk. apply Placed_inv in H. destruct H as [H1 [H2 [H3 [H4 H5]]]].
  unfold core in C. injection C as C1 C2 C3 C4 C5 C6 C7.
  constructor; try congruence.
  - rewrite <- C1, H4. unfold etype. rewrite <- !has_children_shape, C7; auto.
  - intros i k' E. destruct (Hk i k' E) as [k [Ek Hp]]. auto.
Qed.
Lemma Placed_same_slots {A} root d b pos (n n' : node A) :
  Placed root d b pos n -> core n = core n' -> n_slots n' = n_slots n -> Placed root d b pos n'.
Proof.
  intros H C Hs. eapply Placed_core; eauto. intros i k' E. rewrite Hs in E. eauto.
Qed.
Lemma Placed_mark {A} root d b pos s (n : node A) : Placed root d b pos n -> Placed root d b pos (mark_here s n).
Proof. intro H. eapply Placed_same_slots; eauto; [rewrite core_mark_here|rewrite slots_mark_here]; auto. Qed.
Lemma Placed_unmark {A} root d b pos s (n : node A) : Placed root d b pos n -> Placed root d b pos (unmark_here s n).
Proof. intro H. eapply Placed_same_slots; eauto; [rewrite core_unmark_here|rewrite slots_unmark_here]; auto. Qed.
Lemma Placed_map_kids {A} root d b pos (h : node A -> node A) (n : node A) :
  (forall i k d b pos, nth_error (n_slots n) i = Some (Some k) ->
     Placed false d b pos k -> Placed false d b pos (h k)) ->
  Placed root d b pos n -> Placed root d b pos (map_kids h n).
Proof.
  intros Hh H. eapply Placed_core; eauto; [rewrite core_map_kids; auto|].
  intros i k' E. destruct n as [m dd ks]. simpl in *. rewrite nth_error_map in E.
  destruct (nth_error ks i) as [[k|]|] eqn:Ei; simpl in E; try discriminate. injection E as <-.
  exists k; split; eauto.
Qed.
Lemma Placed_mark_rec {A} s (n : node A) : forall root d b pos,
  Placed root d b pos n -> Placed root d b pos (mark_rec s n).
Proof.
  induction n as [m dd ks IH] using node_ind'. intros root d b pos H.
  eapply Placed_core; eauto; [symmetry; apply core_mark_rec|].
  intros i k' E. simpl in *. rewrite nth_error_map in E.
  destruct (nth_error ks i) as [[k|]|] eqn:Ei; simpl in E; try discriminate. injection E as <-.
  exists k; split; eauto.
Qed.
Lemma Placed_unmark_rec {A} s (n : node A) : forall root d b pos,
  Placed root d b pos n -> Placed root d b pos (unmark_rec s n).
Proof.
  induction n as [m dd ks IH] using node_ind'. intros root d b pos H.
  eapply Placed_core; eauto; [symmetry; apply core_unmark_rec|].
  intros i k' E. simpl in *. rewrite nth_error_map in E.
  destruct (nth_error ks i) as [[k|]|] eqn:Ei; simpl in E; try discriminate. injection E as <-.
  exists k; split; eauto.
Qed.

Lemma nth_repeat_none {X} k i (y : X) : nth_error (repeat None k) i = Some (Some y) -> False.
Proof. revert i; induction k; intros [|i]; simpl; try discriminate; eauto. Qed.
Lemma has_children_repeat_none {A} m (d : A) k : has_children (Node m d (repeat None k)) None = false.
Proof. unfold has_children; simpl. induction k; simpl; auto. Qed.

Lemma Placed_new_child {A} (m : meta) k i (d : A) :
  Placed false (S (m_depth m)) (m_addr m ++ [i]) (Some i) (new_child m k i d).
Proof.
  constructor; auto.
  - unfold etype, new_child. rewrite has_children_repeat_none; auto.
  - intros j c E. simpl in E. exfalso; eapply nth_repeat_none; eauto.
Qed.
Lemma promote_fields m : m_depth (promote m) = m_depth m /\ m_addr (promote m) = m_addr m /\
  m_pos (promote m) = m_pos m /\ m_flags (promote m) = m_flags m /\ m_regular (promote m) = m_regular m /\
  m_type (promote m) = match m_type m with LEAF => BRANCH | t => t end.
Proof. unfold promote. destruct (m_type m) eqn:E; simpl; rewrite ?E; auto 10. Qed.

Lemma nth_map_seq {X} (g : nat -> X) n i : nth_error (map g (seq 0 n)) i = if i <? n then Some (g i) else None.
Proof.
  rewrite nth_error_map. destruct (Nat.ltb_spec i n).
  - rewrite nth_error_nth' with (d := 0) by (rewrite seq_length; auto).
    rewrite seq_nth by auto. auto.
  - replace (nth_error (seq 0 n) i) with (@None nat); auto.
    symmetry. apply nth_error_None. rewrite seq_length; auto.
Qed.

Lemma Placed_split {A} kid root d b pos (n n' : node A) :
  split kid n = Ok n' -> Placed root d b pos n -> Placed root d b pos n'.
Proof.
  intros E H. apply Placed_inv in H. destruct H as [H1 [H2 [H3 [H4 H5]]]].
  destruct n as [m dd ks]. simpl in *. destruct (m_regular m); [|destruct ks; discriminate].
  injection E as <-.
  assert (Hk : forall i k, nth_error (map (fun i => Some (new_child m (length ks) i (kid i (length ks) dd)))
                 (seq 0 (length ks))) i = Some (Some k) -> Placed false (S d) (b ++ [i]) (Some i) k).
  { intros i k E. rewrite nth_map_seq in E. destruct (i <? length ks); [|discriminate].
    injection E as <-. subst d b. apply Placed_new_child. }
  destruct ks as [|k0 ks].
  - constructor; auto.
  - destruct (promote_fields m) as [P1 [P2 [P3 [_ [_ P6]]]]].
    constructor; cbn [n_meta n_slots]; try congruence; auto.
    rewrite P6, H4. unfold etype. destruct root; auto.
    destruct (has_children (Node m dd (k0 :: ks)) None); auto.
Qed.

Lemma Placed_add_child {A} kid root d b pos (n n' : node A) :
  add_child kid n = Ok n' -> Placed root d b pos n -> Placed root d b pos n'.
Proof.
  intros E H. apply Placed_inv in H. destruct H as [H1 [H2 [H3 [H4 H5]]]].
  destruct n as [m dd ks]. simpl in *. destruct (m_regular m); [discriminate|].
  injection E as <-. destruct (promote_fields m) as [P1 [P2 [P3 [_ [_ P6]]]]].
  constructor; cbn [n_meta n_slots]; try congruence.
  - rewrite P6, H4. unfold etype. destruct root; auto.
    replace (has_children (Node (promote m) dd (ks ++ [Some (Node (mkMeta LEAF (S (m_depth m))
      (m_addr m ++ [length ks]) (Some (length ks)) [] false) (kid (length ks) (S (length ks)) dd) [])])) None)
      with true by (unfold has_children; simpl; rewrite existsb_app; simpl; rewrite orb_true_r; auto).
    destruct (has_children (Node m dd ks) None); auto.
  - intros i k E. destruct (Nat.lt_ge_cases i (length ks)) as [L|L].
    + rewrite nth_error_app1 in E by auto. auto.
    + rewrite nth_error_app2 in E by auto. destruct (i - length ks) as [|x] eqn:Ex.
      * simpl in E. injection E as <-. assert (i = length ks) as -> by lia. subst d b.
        constructor; auto. intros j c Ec. destruct j; discriminate.
      * simpl in E. destruct x; discriminate.
Qed.

Lemma demote_spec {A} (n : node A) :
  n_slots (demote n) = n_slots n /\ n_data (demote n) = n_data n /\
  m_depth (n_meta (demote n)) = m_depth (n_meta n) /\ m_addr (n_meta (demote n)) = m_addr (n_meta n) /\
  m_pos (n_meta (demote n)) = m_pos (n_meta n) /\
  m_flags (n_meta (demote n)) = m_flags (n_meta n) /\
  m_regular (n_meta (demote n)) = m_regular (n_meta n) /\
  m_type (n_meta (demote n)) =
    (if ntype_eqb (m_type (n_meta n)) BRANCH && negb (has_children n None) then LEAF else m_type (n_meta n)).
Proof.
  destruct n as [m d ks]. unfold demote.
  destruct (ntype_eqb (m_type m) BRANCH && negb (has_children (Node m d ks) None)) eqn:E;
    cbn [n_meta]; rewrite ?E; simpl; auto 10.
Qed.

Lemma Placed_shrink {A} root d b pos (n : node A) ks' :
  Placed root d b pos n ->
  (forall i k, nth_error ks' i = Some (Some k) -> nth_error (n_slots n) i = Some (Some k)) ->
  Placed root d b pos (demote (Node (n_meta n) (n_data n) ks')).
Proof.
  intros H Hs. apply Placed_inv in H. destruct H as [H1 [H2 [H3 [H4 H5]]]].
  destruct (demote_spec (Node (n_meta n) (n_data n) ks')) as [D1 [D2 [D3 [D4 [D5 [_ [_ D8]]]]]]].
  set (n' := demote _) in *. cbn [n_meta n_slots] in *.
  constructor; try congruence.
  - assert (Hc : has_children n' None = has_children (Node (n_meta n) (n_data n) ks') None).
    { unfold has_children; rewrite D1; auto. }
    rewrite D8, H4. unfold etype. rewrite Hc. destruct root; auto.
    destruct (has_children (Node (n_meta n) (n_data n) ks') None) eqn:E2; simpl.
    + apply has_children_fl in E2. destruct E2 as [i [k [Ei _]]]. simpl in Ei. apply Hs in Ei.
      assert (E1 : has_children n None = true) by (apply has_children_fl; exists i, k; split; [auto|exact I]).
      rewrite E1; auto.
    + destruct (has_children n None); auto.
  - intros i k E. rewrite D1 in E. auto.
Qed.
Lemma Placed_delete {A} root d b pos (n : node A) :
  Placed root d b pos n -> Placed root d b pos (delete_children n).
Proof.
  intro H. destruct n as [m dd ks]. unfold delete_children.
  apply (Placed_shrink (n := Node m dd ks) (map (fun _ => None) ks) H).
  intros i k E. rewrite nth_error_map in E. destruct (nth_error ks i); discriminate.
Qed.
Lemma Placed_delete_at {A} root d b pos i (n n' : node A) :
  delete_child_at i n = Ok n' -> Placed root d b pos n -> Placed root d b pos n'.
Proof.
  intros E H. destruct n as [m dd ks]. simpl in E.
  destruct (nth_error ks i) as [[k|]|] eqn:Ei; try discriminate.
  destruct (ntype_eqb (m_type (n_meta k)) ROOT); [discriminate|].
  assert (E' : demote (Node m dd (set_nth i None ks)) = n') by (injection E as E; exact E). subst n'.
  apply (Placed_shrink (n := Node m dd ks) (set_nth i None ks) H).
  intros j c Ej. simpl. destruct (Nat.eq_dec i j) as [->|Hij].
  - rewrite nth_set_nth_eq in Ej by (apply nth_error_Some; congruence). discriminate.
  - rewrite nth_set_nth_neq in Ej; auto.
Qed.

Lemma Placed_coarsen {A} sf cf nl clean (n : node A) : forall root d b pos,
  Placed root d b pos n -> Placed root d b pos (coarsen sf cf nl clean n).
Proof.
  induction n as [m dd ks IH] using node_ind'. intros root d b pos H. cbn [coarsen].
  destruct (match sf with Some _ => negb (is_marked (Node m dd ks) sf) | None => false end); auto.
  set (n1 := match nl with Some l => mark_here l (Node m dd ks) | None => Node m dd ks end).
  assert (H1 : Placed root d b pos n1).
  { unfold n1. destruct nl; auto. apply Placed_mark; auto. }
  assert (Hs : n_slots n1 = ks) by (unfold n1; destruct nl; auto).
  destruct (coarsen_here (Node m dd ks) sf cf).
  - set (n2 := match nl with Some _ => n1 | None => match sf with Some _ => map_kids (unmark_here sf) n1
                 | None => delete_children n1 end end).
    assert (H2 : Placed root d b pos n2).
    { unfold n2. destruct nl; auto. destruct sf.
      - apply Placed_map_kids; auto. intros; apply Placed_unmark; auto.
      - apply Placed_delete; auto. }
    destruct cf; auto. destruct clean; auto. apply Placed_unmark; auto.
  - destruct (has_children n1 sf); auto.
    assert (E : Node (n_meta n1) (n_data n1) (map (fun o => match o with
       | Some k => Some (coarsen sf cf nl clean k) | None => None end) ks) = map_kids (coarsen sf cf nl clean) n1).
    { destruct n1 as [m1 d1 ks1]. simpl in Hs. subst ks1. reflexivity. }
    rewrite E. apply Placed_map_kids; auto. intros i k d' b' pos' Ei. rewrite Hs in Ei. eapply IH; eauto.
Qed.

Lemma Placed_refine_leaf {A} kid sf rf nl clean root d b pos (n n' : node A) :
  refine_leaf kid sf rf nl clean n = Ok n' -> Placed root d b pos n -> Placed root d b pos n'.
Proof.
  unfold refine_leaf. intros E H.
  set (n1 := match nl with Some l => mark_here l n | None => n end) in *.
  assert (H1 : Placed root d b pos n1) by (unfold n1; destruct nl; auto; apply Placed_mark; auto).
  destruct (match rf with Some _ => negb (is_marked n1 rf) | None => false end).
  - injection E as <-; auto.
  - assert (G : forall n2 : node A, Placed root d b pos n2 ->
       Placed root d b pos (match rf with Some _ => if clean then unmark_here rf (label_kids sf nl n2) else label_kids sf nl n2
                            | None => label_kids sf nl n2 end)).
    { intros n2 H2. assert (H3 : Placed root d b pos (label_kids sf nl n2)).
      { unfold label_kids. destruct nl; [|destruct sf; auto]; apply Placed_map_kids; auto;
          intros; apply Placed_mark; auto. }
      destruct rf; auto. destruct clean; auto. apply Placed_unmark; auto. }
    destruct (has_children n1 None); simpl in E.
    + injection E as <-. auto.
    + destruct (split kid n1) as [n2|] eqn:Es; simpl in E; [|discriminate].
      injection E as <-. apply G. eapply Placed_split; eauto.
Qed.

Lemma fplaced_refine_fold {A} kid sf rf nl clean l (f f' : forest A) :
  fold_res (refine_step kid sf rf nl clean) l f = Ok f' -> fplaced f -> fplaced f'.
Proof.
  revert f; induction l as [|p l IH]; intros f E H; simpl in E; [injection E as <-; auto|].
  unfold refine_step in E at 1. destruct (fget f p) as [n|] eqn:En; [|discriminate]. simpl in E.
  destruct (refine_leaf kid sf rf nl clean n) as [n'|] eqn:El; simpl in E; [|discriminate].
  apply IH in E; auto. apply fplaced_fupd; auto. intros n0 root d b pos En0 HP.
  rewrite En in En0. injection En0 as <-. eapply Placed_refine_leaf; eauto.
Qed.

Lemma fplaced_map {A} (h : node A -> node A) (f : forest A) :
  (forall n root d b pos, Placed root d b pos n -> Placed root d b pos (h n)) -> fplaced f -> fplaced (map h f).
Proof.
  rewrite !fplaced_alt. intros Hh H i t E. rewrite nth_error_map in E.
  destruct (nth_error f i) as [u|] eqn:Eu; simpl in E; [|discriminate]. injection E as <-. auto.
Qed.
Lemma fplaced_at_node {A} p g (f f' : forest A) :
  (forall n n' root d b pos, g n = Ok n' -> Placed root d b pos n -> Placed root d b pos n') ->
  at_node p g f = Ok f' -> fplaced f -> fplaced f'.
Proof.
  unfold at_node. intros Hg E H. destruct (fget f p) as [n|] eqn:En; [|discriminate].
  destruct (g n) as [n'|] eqn:Eg; simpl in E; [|discriminate]. injection E as <-.
  apply fplaced_fupd; auto. intros n0 root d b pos En0 HP. rewrite En in En0. injection En0 as <-. eauto.
Qed.
Lemma fplaced_fold {A} (g : path -> node A -> node A) l (f : forest A) :
  (forall p n root d b pos, Placed root d b pos n -> Placed root d b pos (g p n)) ->
  fplaced f -> fplaced (fold_left (fun f p => fupd p (g p) f) l f).
Proof.
  intros Hg. revert f; induction l as [|p l IH]; intros f H; simpl; auto.
  apply IH, fplaced_fupd; auto.
Qed.
Lemma fplaced_app {A} (f : forest A) t : fplaced f -> Placed true 0 [length f] (Some (length f)) t -> fplaced (f ++ [t]).
Proof.
  rewrite !fplaced_alt. intros H Ht i u E. destruct (Nat.lt_ge_cases i (length f)) as [L|L].
  - rewrite nth_error_app1 in E by auto; auto.
  - rewrite nth_error_app2 in E by auto. destruct (i - length f) as [|x] eqn:Ex.
    + simpl in E. injection E as <-. assert (i = length f) as -> by lia. auto.
    + simpl in E. destruct x; discriminate.
Qed.
Lemma del_nth_spec {X} i (l : list X) j :
  nth_error (del_nth i l) j = if j <? i then nth_error l j else nth_error l (S j).
Proof.
  revert i j; induction l as [|x l IH]; intros [|i] [|j]; simpl; auto.
  - destruct (S j <? S i); auto.
  - rewrite IH. destruct (Nat.ltb_spec j i), (Nat.ltb_spec (S j) (S i)); auto; lia.
Qed.

Lemma step_placed {A} (kid : nat -> nat -> A -> A) f o f' :
  step kid f o = Ok f' -> fplaced f -> fplaced f'.
Proof.
  intros E H. destruct o; simpl in E.
  - injection E as <-. apply fplaced_app; auto. constructor; auto.
    intros i k Ek. simpl in Ek. exfalso; eapply nth_repeat_none; eauto.
  - injection E as <-. apply fplaced_app; auto. constructor; auto.
    intros i k Ek. simpl in Ek. destruct i; discriminate.
  - unfold remove_tree in E. destruct (Nat.ltb_spec (length f - 1) (length f)) as [L|]; [|discriminate].
    injection E as <-. rewrite fplaced_alt in *. intros i t E. rewrite del_nth_spec in E.
    destruct (Nat.ltb_spec i (length f - 1)) as [L2|L2]; auto.
    exfalso. assert (nth_error f (S i) = None) by (apply nth_error_None; lia). congruence.
  - eapply fplaced_at_node; eauto. intros. eapply Placed_split; eauto.
  - eapply fplaced_at_node; eauto. intros. eapply Placed_add_child; eauto.
  - eapply fplaced_at_node; eauto. intros n n' root d b pos En. injection En as <-. apply Placed_delete.
  - eapply fplaced_at_node; eauto. intros. eapply Placed_delete_at; eauto.
  - eapply fplaced_at_node; eauto. intros n n' root d b pos En. injection En as <-. apply Placed_mark.
  - eapply fplaced_at_node; eauto. intros n n' root d b pos En. injection En as <-. apply Placed_unmark.
  - eapply fplaced_at_node; eauto. intros n n' root d b pos En. injection En as <-. apply Placed_mark_rec.
  - eapply fplaced_at_node; eauto. intros n n' root d b pos En. injection En as <-. apply Placed_unmark_rec.
  - injection E as <-. apply (fplaced_fold (fun _ => mark_here g)); auto. intros; apply Placed_mark; auto.
  - injection E as <-. apply (fplaced_fold (fun _ => unmark_here g)); auto. intros; apply Placed_unmark; auto.
  - injection E as <-. eapply same_but_placed; [apply root_subtrees_same|]; auto.
  - injection E as <-. apply fplaced_map; auto. intros; apply Placed_mark_rec; auto.
  - unfold refine in E.
    set (f1 := match sf with Some s => root_subtrees s f | None => f end) in *.
    assert (H1 : fplaced f1).
    { unfold f1. destruct sf; auto. eapply same_but_placed; [apply root_subtrees_same|]; auto. }
    destruct (fold_res _ _ f1) as [f2|] eqn:Ef; simpl in E; [|discriminate]. injection E as <-.
    apply fplaced_refine_fold in Ef; auto.
    destruct nl; auto. eapply same_but_placed; [apply root_subtrees_same|]; auto.
  - injection E as <-. unfold fcoarsen. apply fplaced_map.
    + intros; apply Placed_coarsen; auto.
    + destruct sf; auto. eapply same_but_placed; [apply root_subtrees_same|]; auto.
Qed.
Theorem run_placed {A} (kid : nat -> nat -> A -> A) l f f' :
  run kid f l = Ok f' -> fplaced f -> fplaced f'.
Proof.
  revert f; induction l as [|o l IH]; intros f E H; simpl in E.
  - injection E as <-; auto.
  - unfold run in E; simpl in E. destruct (step kid f o) as [f1|] eqn:Es; simpl in E; [|discriminate].
    eapply IH; eauto. eapply step_placed; eauto.
Qed.

(** ** find_node *)
Lemma ffind_from_present {A} (n : node A) r k : nget n r = Some k -> ffind_from (Some n) r = Ok (Some k).
Proof.
  revert n; induction r as [|i r IH]; intros n E; simpl in *; [congruence|].
  destruct (nth_error (n_slots n) i) as [[c|]|] eqn:Ei; try discriminate.
  assert (Hc : has_children n None = true) by (apply has_children_fl; exists i, c; split; [auto|exact I]).
  rewrite Hc; auto.
Qed.
Lemma ffind_node_present {A} (f : forest A) p n : fget f p = Some n -> ffind_node f p = Ok (inl (Some n)).
Proof.
  destruct p as [|i r]; [discriminate|]. simpl. intro E. destruct f as [|t0 f]; [destruct i; discriminate|].
  destruct (nth_error (t0 :: f) i) as [t|] eqn:Et; [|discriminate].
  rewrite (ffind_from_present _ _ E). auto.
Qed.
Lemma tree_find_node_present {A} (n : node A) r k : nget n r = Some k -> tree_find_node n r = Ok (Some k).
Proof.
  unfold tree_find_node. revert n; induction r as [|i r IH]; intros n E; simpl in *; [congruence|].
  destruct (nth_error (n_slots n) i) as [[c|]|] eqn:Ei; try discriminate.
  assert (Hc : has_children n None = true) by (apply has_children_fl; exists i, c; split; [auto|exact I]).
  assert (L : i < n_children n) by (apply nth_error_Some; unfold n_children; congruence).
  rewrite Hc. apply Nat.ltb_lt in L. rewrite L. simpl. apply IH; auto.
Qed.
Lemma tree_find_node_sound {A} (n : node A) r o : tree_find_node n r = Ok o -> o = nget n r.
Proof.
  unfold tree_find_node. revert n; induction r as [|i r IH]; intros n E; simpl in *; [congruence|].
  destruct (has_children n None && (i <? n_children n)) eqn:Ec.
  - destruct (nth_error (n_slots n) i) as [[c|]|] eqn:Ei.
    + apply IH; auto.
    + destruct r; simpl in E; congruence.
    + congruence.
  - injection E as <-. destruct (nth_error (n_slots n) i) as [[c|]|] eqn:Ei; auto.
    exfalso. apply andb_false_iff in Ec. destruct Ec as [Ec|Ec].
    + assert (Hc : has_children n None = true) by (apply has_children_fl; exists i, c; split; [auto|exact I]). congruence.
    + apply Nat.ltb_ge in Ec. assert (i < length (n_slots n)) by (apply nth_error_Some; congruence).
      unfold n_children in Ec; lia.
Qed.
(** every node has either all its children or none *)
Definition all_or_none {A} (t : node A) : Prop :=
  forall r n i, nget t r = Some n -> has_children n None = true -> nth_error (n_slots n) i <> Some None.
Lemma tree_find_node_total {A} (n : node A) r : all_or_none n -> tree_find_node n r = Ok (nget n r).
Proof.
  unfold tree_find_node. revert n; induction r as [|i r IH]; intros n H; simpl; auto.
  destruct (has_children n None) eqn:Hc; simpl.
  - destruct (Nat.ltb_spec i (n_children n)) as [L|L].
    + destruct (nth_error (n_slots n) i) as [[c|]|] eqn:Ei; auto.
      * apply IH. intros r' k j E. apply (H (i :: r') k j). simpl; rewrite Ei; auto.
      * exfalso. apply (H [] n i eq_refl Hc Ei).
    + destruct (nth_error (n_slots n) i) as [[c|]|] eqn:Ei; auto.
      exfalso. assert (i < length (n_slots n)) by (apply nth_error_Some; congruence).
      unfold n_children in L; lia.
  - rewrite has_children_false in Hc.
    destruct (nth_error (n_slots n) i) as [[c|]|] eqn:Ei; auto. exfalso; eapply Hc; eauto. exact I.
Qed.

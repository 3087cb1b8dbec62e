(** Forest.coarsen: effect on every object (C12-C14). *)
From Coq Require Import List Arith Bool Lia.
Import ListNotations.
From Verif Require Import Tree Forest SpecForest TreeFacts ForestFacts LabelFacts RootFacts PlaceFacts RefineFacts RefineFacts2.

Section One.
Context {A : Type}.
Variables (sf cf nl : option flag) (clean : bool).

Lemma not_in_sf (n : node A) :
  (match sf with Some _ => negb (is_marked n sf) | None => false end) = true <-> ~ fl_ok sf n.
Proof.
  unfold fl_ok. destruct sf; [rewrite negb_true_iff; destruct (is_marked n (Some f)); split; congruence|].
  split; [discriminate|tauto].
Qed.
Lemma coarsen_out (n : node A) : ~ fl_ok sf n -> coarsen sf cf nl clean n = n.
Proof. intro H. apply not_in_sf in H. destruct n; cbn [coarsen]. rewrite H; auto. Qed.

(** what happens below a node *)
Lemma coarsen_below (n : node A) i r : fl_ok sf n ->
  nget (coarsen sf cf nl clean n) (i :: r) =
  match nth_error (n_slots n) i with
  | Some (Some k) =>
      if coarsen_here n sf cf
      then match nl, sf with
           | Some _, _ => nget k r
           | None, Some _ => nget (unmark_here sf k) r
           | None, None => None
           end
      else nget (coarsen sf cf nl clean k) r
  | _ => None
  end.
Proof.
  intro Hn. assert (H0 : (match sf with Some _ => negb (is_marked n sf) | None => false end) = false).
  { destruct (match sf with Some _ => negb (is_marked n sf) | None => false end) eqn:E; auto.
    apply not_in_sf in E. tauto. }
  destruct n as [m d ks]. cbn [coarsen]. rewrite H0.
  set (n1 := match nl with Some l => mark_here l (Node m d ks) | None => Node m d ks end).
  assert (Hs : n_slots n1 = ks) by (unfold n1; destruct nl; auto). cbn [n_slots].
  destruct (coarsen_here (Node m d ks) sf cf) eqn:Eh.
  - set (n2 := match nl with Some _ => n1 | None => match sf with Some _ => map_kids (unmark_here sf) n1
                 | None => delete_children n1 end end).
    assert (Hf : forall r, nget (match cf with Some _ => if clean then unmark_here cf n2 else n2 | None => n2 end) (i :: r)
       = nget n2 (i :: r)).
    { intro r0. destruct cf; auto. destruct clean; auto. destruct n2; auto. }
    rewrite Hf. unfold n2. destruct nl as [l|].
    + cbn [nget]. rewrite Hs. destruct (nth_error ks i) as [[k|]|]; auto.
    + destruct sf as [s|].
      * rewrite nget_map_kids. rewrite Hs. destruct (nth_error ks i) as [[k|]|]; auto.
      * unfold n1. unfold delete_children, demote.
        destruct (ntype_eqb (m_type m) BRANCH && negb (has_children (Node m d (map (fun _ => None) ks)) None));
        simpl; rewrite nth_error_map; destruct (nth_error ks i) as [[k|]|]; auto.
  - destruct (has_children n1 sf) eqn:Ec.
    + simpl. rewrite nth_error_map. destruct (nth_error ks i) as [[k|]|]; auto.
    + cbn [nget]. rewrite Hs. destruct (nth_error ks i) as [[k|]|] eqn:Ei; auto.
      rewrite has_children_false in Ec. rewrite coarsen_out; auto. rewrite Hs in Ec. eapply Ec; eauto.
Qed.

(** the node itself *)
Lemma coarsen_self (n : node A) : fl_ok sf n ->
  labels (coarsen sf cf nl clean n) =
    (let l1 := match nl with Some l => add_flag l (labels n) | None => labels n end in
     if coarsen_here n sf cf && clean then match cf with Some c => del_flag c l1 | None => l1 end else l1) /\
  body (coarsen sf cf nl clean n) = body n /\
  (~ (coarsen_here n sf cf = true /\ nl = None /\ sf = None) -> core (coarsen sf cf nl clean n) = core n).
Proof.
  intro Hn. assert (H0 : (match sf with Some _ => negb (is_marked n sf) | None => false end) = false).
  { destruct (match sf with Some _ => negb (is_marked n sf) | None => false end) eqn:E; auto.
    apply not_in_sf in E. tauto. }
  destruct n as [m d ks]. cbn [coarsen]. rewrite H0.
  set (n0 := Node m d ks) in *.
  set (n1 := match nl with Some l => mark_here l n0 | None => n0 end).
  assert (H1 : core n1 = core n0 /\ labels n1 = match nl with Some l => add_flag l (labels n0) | None => labels n0 end).
  { unfold n1. destruct nl; auto. }
  destruct H1 as [C1 L1].
  destruct (coarsen_here n0 sf cf) eqn:Eh.
  - set (n2 := match nl with Some _ => n1 | None => match sf with Some _ => map_kids (unmark_here sf) n1
                 | None => delete_children n1 end end).
    assert (H2 : labels n2 = labels n1 /\ body n2 = body n1 /\ (~ (nl = None /\ sf = None) -> core n2 = core n1)).
    { unfold n2. destruct nl as [l|]; auto. destruct sf as [s|].
      - rewrite labels_map_kids. pose proof (core_map_kids (unmark_here (Some s)) n1) as C.
        split; auto. split; auto. apply core_body; auto.
      - split; [|split; [|tauto]]; unfold n1, n0, delete_children, demote, body;
        destruct (ntype_eqb (m_type m) BRANCH && negb (has_children (Node m d (map (fun _ => None) ks)) None));
        simpl; rewrite ?map_length; auto. }
    destruct H2 as [L2 [B2 C2]]. cbn [andb].
    assert (HB : body n2 = body n0) by (rewrite B2; apply core_body; auto).
    assert (HC : ~ (true = true /\ nl = None /\ sf = None) -> core n2 = core n0) by (intro H; rewrite C2; auto).
    destruct cf as [c|]; [destruct clean|]; cbn [andb].
    + split; [|split].
      * destruct n2; simpl in *. unfold labels in *; simpl in *. rewrite L2, L1; auto.
      * destruct n2; auto.
      * intro H. rewrite core_unmark_here. auto.
    + rewrite L2, L1. auto.
    + rewrite L2, L1. destruct clean; auto.
  - cbn [andb]. destruct (has_children n1 sf).
    + assert (E : Node (n_meta n1) (n_data n1) (map (fun o => match o with
       | Some k => Some (coarsen sf cf nl clean k) | None => None end) ks) = map_kids (coarsen sf cf nl clean) n1).
      { unfold n1. destruct nl; reflexivity. }
      rewrite E, labels_map_kids, L1. split; auto.
      assert (C : core (map_kids (coarsen sf cf nl clean) n1) = core n0) by (rewrite core_map_kids; auto).
      split; auto. apply core_body; auto.
    + rewrite L1. split; auto. split; auto. apply core_body; auto.
Qed.
End One.

(** ** whole forest *)
(** the coarsening decision at path [a], seen from outside *)
Definition here {A} (f : forest A) (sf cf : option flag) (a : path) : Prop :=
  exists n, fget f a = Some n /\ fl_ok sf n /\ coarsen_here n sf cf = true.

Section Forest.
Context {A : Type}.
Variables (sf cf nl : option flag) (clean : bool).
Notation co := (coarsen sf cf nl clean).

Definition up_ok (t : node A) : Prop :=
  forall r i n c, nget t r = Some n -> nth_error (n_slots n) i = Some (Some c) -> fl_ok sf c -> fl_ok sf n.
Lemma up_ok_kid (n : node A) i k : up_ok n -> nth_error (n_slots n) i = Some (Some k) -> up_ok k.
Proof. intros H E r j m c Em Ec. apply (H (i :: r) j m c); auto. simpl. rewrite E; auto. Qed.
Lemma up_ok_all (t : node A) r n : up_ok t -> nget t r = Some n -> fl_ok sf n -> fl_ok sf t.
Proof.
  revert t. induction r as [|i r IH]; intros t H E Hn; [injection E as <-; auto|].
  simpl in E. destruct (nth_error (n_slots t) i) as [[k|]|] eqn:Ei; try discriminate.
  apply (H [] i t k); auto. eapply IH; eauto. eapply up_ok_kid; eauto.
Qed.

Lemma fl_dec (n : node A) : {fl_ok sf n} + {~ fl_ok sf n}.
Proof. unfold fl_ok. destruct sf; [destruct (is_marked n (Some f)); auto|auto]. Qed.

Lemma tree_free (t : node A) r n : up_ok t -> nget t r = Some n ->
  (forall a i r', r = a ++ i :: r' -> forall m, nget t a = Some m -> fl_ok sf m -> coarsen_here m sf cf = false) ->
  nget (co t) r = Some (co n).
Proof.
  revert t. induction r as [|i r IH]; intros t HU E HF; [injection E as <-; auto|].
  destruct (fl_dec t) as [Ht|Ht].
  - rewrite coarsen_below by auto. simpl in E. destruct (nth_error (n_slots t) i) as [[k|]|] eqn:Ei; try discriminate.
    rewrite (HF [] i r eq_refl t eq_refl Ht). apply IH; auto; [eapply up_ok_kid; eauto|].
    intros a j r' -> m Em. apply (HF (i :: a) j r' eq_refl). simpl. rewrite Ei; auto.
  - rewrite (coarsen_out sf cf nl clean t Ht), E. f_equal. symmetry. apply coarsen_out.
    intro Hn. apply Ht. eapply up_ok_all; eauto.
Qed.

Lemma tree_cut (t : node A) a m i r : up_ok t -> nget t a = Some m -> fl_ok sf m -> coarsen_here m sf cf = true ->
  (forall b j r', a = b ++ j :: r' -> forall m', nget t b = Some m' -> fl_ok sf m' -> coarsen_here m' sf cf = false) ->
  nget (co t) (a ++ i :: r) =
  match nth_error (n_slots m) i with
  | Some (Some k) => match nl, sf with
           | Some _, _ => nget k r
           | None, Some _ => nget (unmark_here sf k) r
           | None, None => None
           end
  | _ => None
  end.
Proof.
  intros HU Em Hm Hh HF. rewrite nget_app. rewrite (tree_free t a m); auto.
  rewrite coarsen_below by auto. rewrite Hh. auto.
Qed.

Lemma fget_map (g : node A -> node A) (f : forest A) i r :
  fget (map g f) (i :: r) = match nth_error f i with Some t => nget (g t) r | None => None end.
Proof. simpl. rewrite nth_error_map. destruct (nth_error f i); auto. Qed.

Lemma rooted_up (f : forest A) i t : submesh_rooted f sf -> nth_error f i = Some t -> up_ok t.
Proof.
  intros HR Et r j n c En Ec Hc.
  assert (E1 : fget f (i :: r) = Some n) by (simpl; rewrite Et; auto).
  assert (E2 : fget f ((i :: r) ++ [j]) = Some c) by (rewrite fget_snoc, E1, Ec; [auto|discriminate]).
  apply (@rooted_inner A f sf (i :: r) j [] n c HR); auto. discriminate.
Qed.

Lemma coarsen_free (f : forest A) x n : submesh_rooted f sf -> fget f x = Some n ->
  (forall a i r, x = a ++ i :: r -> ~ here f sf cf a) -> fget (map co f) x = Some (co n).
Proof.
  intros HR E HF. destruct x as [|i r]; [discriminate|]. rewrite fget_map. simpl in E.
  destruct (nth_error f i) as [t|] eqn:Et; [|discriminate]. apply tree_free; auto; [eapply rooted_up; eauto|].
  intros a j r' -> m Em Hm. destruct (coarsen_here m sf cf) eqn:Eh; auto. exfalso.
  apply (HF (i :: a) j r' eq_refl). exists m. simpl. rewrite Et; auto.
Qed.

Lemma coarsen_cut (f : forest A) a i r n : submesh_rooted f sf -> here f sf cf a ->
  (forall b j r', a = b ++ j :: r' -> ~ here f sf cf b) -> fget f (a ++ i :: r) = Some n ->
  fget (map co f) (a ++ i :: r) =
  match nl, sf with
  | Some _, _ => Some n
  | None, Some _ => Some (match r with [] => unmark_here sf n | _ => n end)
  | None, None => None
  end.
Proof.
  intros HR [m [Em [Hm Hh]]] HF En. destruct a as [|y a]; [discriminate|]. cbn [app]. rewrite fget_map.
  cbn [app] in En. simpl in Em, En. destruct (nth_error f y) as [t|] eqn:Et; [|discriminate].
  rewrite (tree_cut t a m i r); auto; [|eapply rooted_up; eauto|].
  - rewrite nget_app, Em in En. simpl in En. destruct (nth_error (n_slots m) i) as [[k|]|]; try discriminate.
    destruct nl; auto. destruct sf as [s|]; auto. destruct r as [|j r].
    + simpl in En. injection En as <-. auto.
    + simpl in *. rewrite slots_unmark_here. auto.
  - intros b j r' -> m' Em' Hm'. destruct (coarsen_here m' sf cf) eqn:Eh; auto. exfalso.
    apply (HF (y :: b) j r' eq_refl). exists m'. simpl. rewrite Et; auto.
Qed.

(** objects only disappear *)
Lemma coarsen_shrinks (t : node A) r n' : nget (co t) r = Some n' -> exists n, nget t r = Some n.
Proof.
  revert r n'. induction t as [m d ks IH] using node_ind'; intros [|i r] n' E; [simpl; eauto|].
  destruct (fl_dec (Node m d ks)) as [Ht|Ht].
  - rewrite coarsen_below in E by auto. simpl in *. destruct (nth_error ks i) as [[k|]|] eqn:Ei; try discriminate.
    destruct (coarsen_here (Node m d ks) sf cf).
    + destruct nl; [eauto|]. destruct sf; [|discriminate]. destruct r as [|j r]; [simpl; eauto|].
      simpl in *. rewrite slots_unmark_here in E. eauto.
    + eapply IH; eauto.
  - rewrite coarsen_out in E by auto. eauto.
Qed.
Lemma coarsen_present (f : forest A) x : present (map co f) x = true -> present f x = true.
Proof.
  rewrite !present_some. intros [n' E]. destruct x as [|i r]; [discriminate|]. rewrite fget_map in E. simpl.
  destruct (nth_error f i) as [t|]; [|discriminate]. eapply coarsen_shrinks; eauto.
Qed.

Lemma here_dec (f : forest A) a : {here f sf cf a} + {~ here f sf cf a}.
Proof.
  unfold here. destruct (fget f a) as [n|]; [|right; intros [n [E _]]; discriminate].
  destruct (fl_dec n) as [H|H]; [|right; intros [m [E [H1 _]]]; injection E as <-; auto].
  destruct (coarsen_here n sf cf) eqn:Eh; [left; eauto|].
  right; intros [m [E [_ H1]]]; injection E as <-; congruence.
Qed.
(** either no proper ancestor is coarsened, or there is a topmost one *)
Lemma topmost (f : forest A) x :
  (forall a i r, x = a ++ i :: r -> ~ here f sf cf a) \/
  (exists a i r, x = a ++ i :: r /\ here f sf cf a /\ forall b j r', a = b ++ j :: r' -> ~ here f sf cf b).
Proof.
  induction x as [|y x IH] using rev_ind.
  - left. intros a i r E. destruct a; discriminate.
  - destruct IH as [IH|[a [i [r [-> H]]]]].
    + destruct (here_dec f x) as [H|H].
      * right. exists x, y, []. auto.
      * left. intros a i r E. destruct r as [|z r] using rev_ind.
        -- apply app_inj_tail in E. destruct E as [<- _]. auto.
        -- rewrite app_comm_cons, app_assoc in E. apply app_inj_tail in E. destruct E as [-> _]. eapply IH; eauto.
    + right. exists a, i, (r ++ [y]). rewrite <- app_assoc. auto.
Qed.
End Forest.

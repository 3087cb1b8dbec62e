(** * C12, C13, C14: Forest.coarsen; C15: Forest.is_contained_in *)
From Coq Require Import List Arith Bool Lia.
Import ListNotations.
From Verif Require Import Tree Forest SpecForest TreeFacts ForestFacts LabelFacts RootFacts PlaceFacts History
  RefineFacts RefineFacts2 CoarsenFacts Examples.

(** ** Specification vocabulary *)
(** some proper ancestor of [x] is in the submesh and labelled [c] *)
Definition below_label {A} (f : forest A) (sf : option flag) (c : flag) (x : path) : Prop :=
  exists a i r, x = a ++ i :: r /\ in_sub f sf a /\ marked_at f a c = true.
(** [a] has children and none of them has children *)
Definition last_gen {A} (f : forest A) (a : path) : Prop :=
  a <> [] /\ (exists i, present f (a ++ [i]) = true) /\ forall i j, present f (a ++ [i; j]) = false.

Lemma here_label {A} (f : forest A) sf c a : here f sf (Some c) a <-> in_sub f sf a /\ marked_at f a c = true.
Proof.
  unfold here, in_sub, marked_at, coarsen_here. split.
  - intros [n [E [H1 H2]]]. rewrite E. split; eauto.
  - intros [[n [E H1]] H2]. rewrite E in H2. eauto.
Qed.
Lemma fcoarsen_eq {A} sf cf nl clean (f : forest A) : fcoarsen sf cf nl clean f = map (coarsen sf cf nl clean) (base f sf).
Proof. destruct sf; reflexivity. Qed.

Section Lab.
Context {A : Type}.
Variables (sf : option flag) (c : flag) (nl : option flag) (clean : bool).
Variable f : forest A.
Hypothesis HR : submesh_rooted f sf.
Notation f' := (map (coarsen sf (Some c) nl clean) f).
Notation cut := (below_label f sf c).

Lemma cut_dec x : (forall a i r, x = a ++ i :: r -> ~ here f sf (Some c) a) /\ ~ cut x \/
  (exists a i r, x = a ++ i :: r /\ here f sf (Some c) a /\ forall b j r', a = b ++ j :: r' -> ~ here f sf (Some c) b) /\ cut x.
Proof.
  destruct (topmost sf (Some c) f x) as [H|H]; [left|right]; split; auto.
  - intros [a [i [r [-> [H1 H2]]]]]. eapply H; eauto. apply here_label; auto.
  - destruct H as [a [i [r [-> [H1 _]]]]]. apply here_label in H1. exists a, i, r; tauto.
Qed.

Hypothesis Hsub : ~ (nl = None /\ sf = None).

Lemma coarsen_lab_core x n : fget f x = Some n -> exists n', fget f' x = Some n' /\ core n' = core n.
Proof.
  intro En. destruct (cut_dec x) as [[H _]|[[a [i [r [-> [H1 H2]]]]] _]].
  - exists (coarsen sf (Some c) nl clean n). split; [apply coarsen_free; auto|].
    destruct (fl_dec sf n) as [Hn|Hn].
    + destruct (coarsen_self sf (Some c) nl clean n Hn) as [_ [_ C]]. apply C. tauto.
    + rewrite coarsen_out; auto.
  - rewrite (coarsen_cut sf (Some c) nl clean f a i r n); auto.
    destruct nl as [l|]; [eauto|]. destruct sf as [s|]; [|tauto]. eexists; split; eauto.
    destruct r; auto. apply core_unmark_here.
Qed.
End Lab.

Lemma base_core {A} (f : forest A) sf x n : fget f x = Some n -> exists n', fget (base f sf) x = Some n' /\ core n' = core n.
Proof. intro E. apply (same_get f (base f sf) (fun _ _ => True)); auto. apply base_same; auto. Qed.
Lemma base_present {A} (f : forest A) sf x : present (base f sf) x = present f x.
Proof. symmetry. apply (same_but_present x (@base_same A f sf (fun _ _ => True) (fun _ _ _ => I))). Qed.

Lemma free_marked {A} sf cf nl clean (f : forest A) x g : submesh_rooted f sf ->
  (forall a i r, x = a ++ i :: r -> ~ here f sf cf a) ->
  (marked_at (map (coarsen sf cf nl clean) f) x g = true <->
   (marked_at f x g = true \/ (in_sub f sf x /\ nl = Some g)) /\
   ~ (clean = true /\ cf = Some g /\ here f sf cf x)).
Proof.
  intros HR HF. destruct (fget f x) as [n|] eqn:En.
  2:{ assert (E : fget (map (coarsen sf cf nl clean) f) x = None).
      { destruct (fget (map (coarsen sf cf nl clean) f) x) eqn:E; auto. exfalso.
        assert (P : present f x = true) by (apply (coarsen_present sf cf nl clean); apply present_some; eauto).
        apply present_some in P. destruct P; congruence. }
      unfold marked_at. rewrite E, En. split; [discriminate|]. intros [[H|[[n [H _]] _]] _]; congruence. }
  unfold marked_at. rewrite (coarsen_free sf cf nl clean f x n HR En HF), En, !is_marked_some.
  assert (HH : here f sf cf x <-> fl_ok sf n /\ coarsen_here n sf cf = true).
  { unfold here. rewrite En. split; [intros [m [E H]]; injection E as <-; auto|eauto]. }
  assert (HI : in_sub f sf x <-> fl_ok sf n).
  { unfold in_sub. rewrite En. split; [intros [m [E H]]; injection E as <-; auto|eauto]. }
  rewrite HH, HI. destruct (fl_dec sf n) as [Hn|Hn].
  - destruct (coarsen_self sf cf nl clean n Hn) as [L _]. unfold has_label at 1. rewrite L. cbv zeta.
    set (l1 := match nl with Some l => add_flag l (labels n) | None => labels n end).
    assert (M1 : mem_flag g l1 = true <-> has_label g n = true \/ (fl_ok sf n /\ nl = Some g)).
    { unfold l1, has_label. destruct nl as [h|].
      - rewrite mem_add, orb_true_iff, Nat.eqb_eq. split.
        + intros [->|H]; auto.
        + intros [H|[_ H]]; auto. left; congruence.
      - split; auto. intros [H|[_ H]]; [auto|discriminate]. }
    rewrite <- M1. destruct (coarsen_here n sf cf) eqn:Eh; cbn [andb].
    + destruct clean.
      * destruct cf as [c|].
        -- rewrite mem_del, andb_true_iff, negb_true_iff, Nat.eqb_neq. split.
           ++ intros [H1 H2]. split; auto. intros [_ [H3 _]]. congruence.
           ++ intros [H1 H2]. split; auto. intros ->. apply H2. auto.
        -- split; [|tauto]. intro H; split; auto. intros [_ [H1 _]]; discriminate.
      * split; [|tauto]. intro H; split; auto. intros [H1 _]; discriminate.
    + split; [|tauto]. intro H; split; auto. intros [_ [_ [_ H1]]]; discriminate.
  - rewrite coarsen_out by auto. split; [|tauto]. intro H. split; auto. tauto.
Qed.

(** ** C14 *)
Theorem C14_coarsen_new_label : forall A sf c l clean (f : forest A),
  distinct sf (Some l) -> c <> l -> fresh f (Some l) ->
  let f1 := base f sf in
  let f' := fcoarsen sf (Some c) (Some l) clean f in
  (* no object disappears or changes; only labels S (rooting), C and N change *)
  same_but (fun _ g => Some g = sf \/ g = c \/ g = l) f f' /\
  (* the new submesh: members of the old one with no labelled proper ancestor *)
  (forall x, marked_at f' x l = true <-> in_sub f1 sf x /\ ~ below_label f1 sf c x) /\
  rooted f' l /\ subtrees_rooted (Some l) f' = true /\
  (* its leaves: labelled members and old leaves above which nothing is labelled *)
  (forall x, sub_leaf f' (Some l) x <->
     ~ below_label f1 sf c x /\
     (sub_leaf f1 sf x \/ (in_sub f1 sf x /\ marked_at f1 x c = true))) /\
  (* the old submesh is unchanged *)
  (forall s x, sf = Some s -> s <> c -> marked_at f' x s = marked_at (root_subtrees s f) x s) /\
  (* the coarsening label is removed from the new leaves iff clean_up *)
  (forall x, marked_at f' x c = true <->
     marked_at f1 x c = true /\ ~ (clean = true /\ in_sub f1 sf x /\ ~ below_label f1 sf c x)) /\
  is_contained_in f' sf (Some l) = true.
Proof.
  intros A sf c l clean f D Hcl FR f1 f'.
  assert (HR : submesh_rooted f1 sf) by apply base_rooted.
  assert (Ef' : f' = map (coarsen sf (Some c) (Some l) clean) f1) by apply fcoarsen_eq.
  assert (Hl : forall x, marked_at f1 x l = false).
  { intro x. unfold f1. rewrite base_marked; [apply (FR l x eq_refl)|]. intros ->. apply (D l l); auto. }
  assert (SUB : ~ (Some l = None /\ sf = None)) by (intros [H _]; discriminate).
  (* labels anywhere *)
  assert (M : forall x g, marked_at f' x g = true <->
     (marked_at f1 x g = true \/ (in_sub f1 sf x /\ ~ below_label f1 sf c x /\ g = l)) /\
     ~ (clean = true /\ g = c /\ ~ below_label f1 sf c x /\ in_sub f1 sf x)).
  { intros x g. rewrite Ef'. destruct (cut_dec sf c f1 x) as [[HF Hc]|[[a [i [r [Ex [H1 H2]]]]] Hc]].
    - rewrite (free_marked sf (Some c) (Some l) clean f1 x g HR HF). rewrite here_label. split.
      + intros [H0 H3]. split.
        * destruct H0 as [H|[H1 H2]]; auto. right. split; auto. split; auto. congruence.
        * intros [A1 [-> [A2 A3]]]. apply H3. split; auto. split; auto. split; auto.
          destruct H0 as [H|[_ H]]; auto. congruence.
      + intros [H1 H2]. split.
        * destruct H1 as [H1|[H1 [_ ->]]]; auto.
        * intros [A1 [A2 [A3 A4]]]. apply H2. split; auto. split; [congruence|auto].
    - assert (E : marked_at (map (coarsen sf (Some c) (Some l) clean) f1) x g = marked_at f1 x g).
      { subst x. destruct (fget f1 (a ++ i :: r)) as [n|] eqn:En.
        - unfold marked_at. rewrite (coarsen_cut sf (Some c) (Some l) clean f1 a i r n HR H1 H2 En), En. auto.
        - unfold marked_at. rewrite En.
          destruct (fget (map (coarsen sf (Some c) (Some l) clean) f1) (a ++ i :: r)) eqn:E; auto. exfalso.
          assert (P : present f1 (a ++ i :: r) = true) by (apply (coarsen_present sf (Some c) (Some l) clean); apply present_some; eauto).
          apply present_some in P. destruct P; congruence. }
      rewrite E. tauto. }
  assert (ML : forall x, marked_at f' x l = true <-> in_sub f1 sf x /\ ~ below_label f1 sf c x).
  { intro x. rewrite M, Hl. split.
    - intros [[H|H] _]; [discriminate|tauto].
    - intros [H1 H2]. split; [right; auto|]. intros [_ [H _]]. congruence. }
  assert (PR : forall x, present f' x = present f1 x).
  { intro x. destruct (fget f1 x) as [n|] eqn:En.
    - destruct (coarsen_lab_core sf c (Some l) clean f1 HR SUB x n En) as [n' [En' _]]. rewrite <- Ef' in En'.
      unfold present. rewrite En, En'; auto.
    - unfold present. rewrite En. destruct (fget f' x) eqn:E; auto. exfalso.
      assert (P : present f1 x = true) by (apply (coarsen_present sf (Some c) (Some l) clean); rewrite <- Ef'; apply present_some; eauto).
      apply present_some in P. destruct P; congruence. }
  assert (BL : forall a i r, a <> [] -> below_label f1 sf c a -> below_label f1 sf c (a ++ i :: r)).
  { intros a i r _ [b [j [r' [-> H]]]]. exists b, j, (r' ++ i :: r). rewrite <- app_assoc. auto. }
  assert (BS : forall a i, below_label f1 sf c (a ++ [i]) <-> below_label f1 sf c a \/ (in_sub f1 sf a /\ marked_at f1 a c = true)).
  { intros a i. split.
    - intros [b [j [r [E H]]]]. destruct r as [|y r] using rev_ind.
      + apply app_inj_tail in E. destruct E as [-> _]. auto.
      + rewrite app_comm_cons, app_assoc in E. apply app_inj_tail in E. destruct E as [-> _]. left. exists b, j, r; auto.
    - intros [[b [j [r [-> H]]]]|H].
      + exists b, j, (r ++ [i]). rewrite <- app_assoc. auto.
      + exists a, i, []. auto. }
  assert (RT : rooted f' l).
  { split; [|split].
    - intros i H. apply ML. rewrite PR in H. split.
      + destruct sf as [s|]; [|apply in_sub_none; auto]. apply in_sub_some. apply HR; auto.
      + intros [a [j [r [E [H1 _]]]]]. destruct a as [|y a]; [destruct H1 as [n [H1 _]]; discriminate|].
        injection E as _ E. destruct a; discriminate.
    - intros a i r Ha H. apply ML. apply ML in H. destruct H as [H1 H2]. split; [eapply in_sub_up; eauto|].
      intro H. apply H2. apply BL; auto.
    - intros a i j Ha H Hj. apply ML. apply ML in H. destruct H as [H1 H2]. rewrite PR in Hj. split.
      + destruct sf as [s|]; [|apply in_sub_none; auto]. rewrite in_sub_some in *.
        destruct HR as [_ [_ H3]]. eapply H3; eauto.
      + intro H. apply H2. rewrite BS in *. auto. }
  split; [|split; [exact ML|split; [exact RT|split; [apply subtrees_rooted_iff; exact RT|split; [|split; [|split]]]]]].
  - intro x. destruct (fget f x) as [n|] eqn:En.
    + destruct (base_core f sf x n En) as [n1 [E1 C1]]. fold f1 in E1.
      destruct (coarsen_lab_core sf c (Some l) clean f1 HR SUB x n1 E1) as [n' [En' C']]. rewrite <- Ef' in En'.
      rewrite En'. split; [congruence|]. intros g Hg. 
      assert (G : marked_at f' x g = true <-> marked_at f x g = true).
      { rewrite M. assert (B : marked_at f1 x g = marked_at f x g) by (apply base_marked; intro H; apply Hg; auto).
        rewrite B. split.
        - intros [[H|[_ [_ H]]] _]; [auto|exfalso; apply Hg; auto].
        - intro H. split; [auto|]. intros [_ [H1 _]]. apply Hg; auto. }
      unfold marked_at in G. rewrite En, En', !is_marked_some in G.
      destruct (has_label g n), (has_label g n'); auto; destruct G as [G1 G2]; auto; symmetry; auto.
    + destruct (fget f' x) eqn:E; auto.
      assert (P : present f' x = true) by (apply present_some; eauto).
      rewrite PR in P. unfold f1 in P. rewrite base_present in P. apply present_some in P. destruct P; congruence.
  - intro x. rewrite sub_leaf_iff. rewrite in_sub_some, ML. split.
    + intros [[H1 H2] H3]. split; auto.
      destruct (marked_at f1 x c) eqn:Ec; [right; auto|left]. apply sub_leaf_iff. split; auto.
      intros i Hi. apply (H3 i). apply in_sub_some, ML. split; auto. intro H. apply BS in H.
      destruct H as [H|[_ H]]; [auto|congruence].
    + intros [H1 [H2|[H2 H3]]].
      * split; [split; auto; apply sub_leaf_in; auto|]. intros i Hi. apply in_sub_some, ML in Hi.
        apply sub_leaf_iff in H2. destruct H2 as [_ H2]. eapply H2; apply Hi.
      * split; auto. intros i Hi. apply in_sub_some, ML in Hi. destruct Hi as [_ Hi]. apply Hi. apply BS. auto.
  - intros s x -> Hsc. change (root_subtrees s f) with f1.
    assert (G : marked_at f' x s = true <-> marked_at f1 x s = true).
    { rewrite M. split.
      - intros [[H|[_ [_ H]]] _]; auto. exfalso. apply (D s l); auto.
      - intro H. split; auto. intros [_ [H1 _]]. auto. }
    destruct (marked_at f' x s), (marked_at f1 x s); auto; destruct G as [G1 G2]; auto; symmetry; auto.
  - intro x. rewrite M. split.
    + intros [[H|[_ [_ H]]] H2]; [|exfalso; auto]. split; auto. intros [A1 [A2 A3]]. apply H2. auto.
    + intros [H1 H2]. split; auto. intros [A1 [_ [A2 A3]]]. apply H2. auto.
  - unfold is_contained_in. destruct sf as [s|]; auto. destruct (l =? s); auto.
    apply forallb_forall. intros [x n] Hx. cbn [fst snd]. apply in_fget_leaves in Hx. destruct Hx as [En _].
    destruct (is_marked n (Some l)) eqn:Em; auto.
    destruct (get_parent_flag f' x (Some l)) as [a|] eqn:Eg; auto. exfalso.
    unfold get_parent_flag in Eg. pose proof (find_none _ _ Eg) as F. cbv beta in F.
    destruct x as [|i r]; [discriminate|].
    assert (Hr : marked_at f' [i] l = true).
    { apply RT. simpl in En. unfold present. simpl. destruct (nth_error f' i); [auto|discriminate]. }
    destruct r as [|j r].
    + rewrite (is_marked_at _ _ l En) in Em. congruence.
    + specialize (F [i]). assert (In [i] (ancestors (i :: j :: r))).
      { apply in_ancestors. split; [discriminate|]. exists j, r; auto. }
      specialize (F H). unfold marked_at in Hr. destruct (fget f' [i]); [congruence|discriminate].
Qed.
Print Assumptions C14_coarsen_new_label.

(** ** C12 *)
(** [a] is in the submesh, labelled [c], and nothing above it is *)
Definition top_label {A} (f : forest A) (sf : option flag) (c : flag) (a : path) : Prop :=
  in_sub f sf a /\ marked_at f a c = true /\ ~ below_label f sf c a.

Lemma below_snoc {A} (f1 : forest A) sf c a i :
  below_label f1 sf c (a ++ [i]) <-> below_label f1 sf c a \/ (in_sub f1 sf a /\ marked_at f1 a c = true).
Proof.
  split.
  - intros [b [j [r [E H]]]]. destruct r as [|y r] using rev_ind.
    + apply app_inj_tail in E. destruct E as [-> _]. auto.
    + rewrite app_comm_cons, app_assoc in E. apply app_inj_tail in E. destruct E as [-> _]. left. exists b, j, r; auto.
  - intros [[b [j [r [-> H]]]]|H].
    + exists b, j, (r ++ [i]). rewrite <- app_assoc. auto.
    + exists a, i, []. auto.
Qed.

(** The full claim is that the submesh stays rooted.  It is false
    (C12_coarsen_rooted_refuted).  Proved: what is removed, that nothing else
    changes, and exactly when the result is rooted. *)
Theorem C12_coarsen_submesh_partial : forall A s c clean (f : forest A),
  s <> c ->
  let f1 := root_subtrees s f in
  let f' := fcoarsen (Some s) (Some c) None clean f in
  same_but (fun _ g => g = s \/ g = c) f f' /\
  (* the label is removed from exactly the children of the topmost labelled members *)
  (forall x, marked_at f' x s = true <->
     marked_at f1 x s = true /\ ~ exists a i, x = a ++ [i] /\ top_label f1 (Some s) c a) /\
  (* the coarsening label is removed from the topmost labelled members iff clean_up *)
  (forall x, marked_at f' x c = true <->
     marked_at f1 x c = true /\ ~ (clean = true /\ top_label f1 (Some s) c x)) /\
  (* rooted afterwards iff no topmost labelled member has grandchildren in the submesh *)
  (rooted f' s <->
   forall a i j, top_label f1 (Some s) c a -> marked_at f1 (a ++ [i; j]) s = false).
Proof.
  intros A s c clean f Hsc f1 f'.
  assert (HR : submesh_rooted f1 (Some s)) by apply root_subtrees_rooted.
  assert (Ef' : f' = map (coarsen (Some s) (Some c) None clean) f1) by reflexivity.
  assert (SUB : ~ (@None flag = None /\ Some s = None)) by (intros [_ H]; discriminate).
  assert (PR : forall x, present f' x = present f1 x).
  { intro x. destruct (fget f1 x) as [n|] eqn:En.
    - destruct (coarsen_lab_core (Some s) c None clean f1 HR SUB x n En) as [n' [En' _]]. rewrite <- Ef' in En'.
      unfold present. rewrite En, En'; auto.
    - unfold present. rewrite En. destruct (fget f' x) eqn:E; auto. exfalso.
      assert (P : present f1 x = true) by (apply (coarsen_present (Some s) (Some c) None clean); rewrite <- Ef'; apply present_some; eauto).
      apply present_some in P. destruct P; congruence. }
  assert (M : forall x g, marked_at f' x g = true <->
     marked_at f1 x g = true /\
     ~ (g = s /\ exists a i, x = a ++ [i] /\ top_label f1 (Some s) c a) /\
     ~ (clean = true /\ g = c /\ top_label f1 (Some s) c x)).
  { intros x g. rewrite Ef'. destruct (cut_dec (Some s) c f1 x) as [[HF Hc]|[[a [i [r [Ex [H1 H2]]]]] Hc]].
    - rewrite (free_marked (Some s) (Some c) None clean f1 x g HR HF). rewrite here_label. unfold top_label. split.
      + intros [[H|[_ H]] H3]; [|discriminate]. split; auto. split.
        * intros [_ [a [i [-> [A1 [A2 _]]]]]]. apply Hc. apply below_snoc. auto.
        * intros [A1 [-> [A2 [A3 A4]]]]. apply H3. auto.
      + intros [H1 [_ H2]]. split; auto. intros [A1 [A2 [A3 A4]]]. apply H2. injection A2 as ->. auto.
    - assert (Htop : top_label f1 (Some s) c a).
      { apply here_label in H1. split; [tauto|]. split; [tauto|]. intros [b [j [r' [-> [B1 B2]]]]].
        eapply H2; eauto. apply here_label; auto. }
      assert (Hx : ~ top_label f1 (Some s) c x) by (intros [_ [_ H]]; auto).
      subst x. destruct (fget f1 (a ++ i :: r)) as [n|] eqn:En.
      + pose proof (coarsen_cut (Some s) (Some c) None clean f1 a i r n HR H1 H2 En) as E.
        destruct r as [|j r].
        * unfold marked_at. rewrite E, En, !is_marked_some. unfold has_label.
          assert (L : labels (unmark_here (Some s) n) = del_flag s (labels n)) by (destruct n; auto).
          rewrite L, mem_del, andb_true_iff, negb_true_iff, Nat.eqb_neq. split.
          -- intros [H3 H4]. split; auto. split; [|tauto]. intros [-> _]; auto.
          -- intros [H3 [H4 _]]. split; auto. intros ->. apply H4. split; auto. exists a, i. auto.
        * assert (Hn : ~ exists b k, a ++ i :: j :: r = b ++ [k] /\ top_label f1 (Some s) c b).
          { intros [b [k [Eb [_ [_ Hb]]]]]. destruct r as [|y r] using rev_ind.
            - change (a ++ [i; j]) with (a ++ [i] ++ [j]) in Eb. rewrite app_assoc in Eb. apply app_inj_tail in Eb.
              destruct Eb as [<- _]. apply Hb. apply below_snoc. right. split; apply Htop.
            - rewrite !app_comm_cons, app_assoc in Eb. apply app_inj_tail in Eb. destruct Eb as [<- _].
              apply Hb. exists a, i, (j :: r). split; auto. split; apply Htop. }
          unfold marked_at. rewrite E, En. tauto.
      + unfold marked_at. rewrite En.
        destruct (fget (map (coarsen (Some s) (Some c) None clean) f1) (a ++ i :: r)) eqn:E.
        * exfalso. assert (P : present f1 (a ++ i :: r) = true) by (apply (coarsen_present (Some s) (Some c) None clean); apply present_some; eauto).
          apply present_some in P. destruct P; congruence.
        * split; [discriminate|tauto]. }
  assert (MS : forall x, marked_at f' x s = true <->
     marked_at f1 x s = true /\ ~ exists a i, x = a ++ [i] /\ top_label f1 (Some s) c a).
  { intro x. rewrite M. split; [intros [H1 [H2 _]]|intros [H1 H2]]; split; auto.
    split; [tauto|]. intros [_ [H _]]. auto. }
  split; [|split; [exact MS|split]].
  - intro x. destruct (fget f x) as [n|] eqn:En.
    + destruct (base_core f (Some s) x n En) as [n1 [E1 C1]]. change (base f (Some s)) with f1 in E1.
      destruct (coarsen_lab_core (Some s) c None clean f1 HR SUB x n1 E1) as [n' [En' C']]. rewrite <- Ef' in En'.
      rewrite En'. split; [congruence|]. intros g Hg.
      assert (G : marked_at f' x g = true <-> marked_at f x g = true).
      { rewrite M. assert (B : marked_at f1 x g = marked_at f x g).
        { apply (base_marked f (Some s)). intro H; apply Hg; left; congruence. }
        rewrite B. split; [tauto|]. intro H. split; [auto|]. split; intro H1; apply Hg; tauto. }
      unfold marked_at in G. rewrite En, En', !is_marked_some in G.
      destruct (has_label g n), (has_label g n'); auto; destruct G as [G1 G2]; auto; symmetry; auto.
    + destruct (fget f' x) eqn:E; auto.
      assert (P : present f' x = true) by (apply present_some; eauto).
      rewrite PR in P. change f1 with (base f (Some s)) in P. rewrite base_present in P. apply present_some in P. destruct P; congruence.
  - intro x. rewrite M. split.
    + intros [H1 [H2 H3]]. split; auto. tauto.
    + intros [H1 H2]. split; auto. split; [intros [H _]; auto|tauto].
  - split.
    + intros [_ [C2 _]] a i j Ht. destruct (marked_at f1 (a ++ [i; j]) s) eqn:E; auto. exfalso.
      assert (Ha : a <> []) by (intros ->; destruct Ht as [[n [Hn _]] _]; discriminate).
      assert (E' : marked_at f' (a ++ [i; j]) s = true).
      { apply MS. split; auto. intros [b [k [Eb Hb]]].
        change (a ++ [i; j]) with (a ++ [i] ++ [j]) in Eb. rewrite app_assoc in Eb. apply app_inj_tail in Eb.
        destruct Eb as [<- _]. destruct Hb as [_ [_ Hb]]. apply Hb. apply below_snoc. right. split; apply Ht. }
      assert (E2 : marked_at f' (a ++ [i]) s = true).
      { apply (C2 (a ++ [i]) j []); [destruct a; discriminate|]. rewrite <- app_assoc. auto. }
      apply MS in E2. destruct E2 as [_ E2]. apply E2. exists a, i; auto.
    + intro HG. destruct HR as [R1 [R2 R3]]. split; [|split].
      * intros i H. rewrite PR in H. apply MS. split; [apply R1; auto|]. intros [a [j [E Ht]]].
        destruct a as [|y a]; [destruct Ht as [[n [Hn _]] _]; discriminate|]. injection E as _ E. destruct a; discriminate.
      * intros a i r Ha H. apply MS in H. destruct H as [H1 H2]. apply MS.
        split; [eapply R2; eauto|]. intros [b [j [-> Ht]]].
        assert (G : marked_at f1 (b ++ [j; i]) s = true).
        { destruct r as [|k r]; [rewrite <- app_assoc in H1; auto|].
          apply (R2 (b ++ [j; i]) k r); [destruct b; discriminate|]. rewrite <- !app_assoc in *. auto. }
        rewrite (HG b j i Ht) in G. discriminate.
      * intros a i j Ha H Hj. apply MS in H. destruct H as [H1 H2]. rewrite PR in Hj. apply MS.
        split; [eapply R3; eauto|]. intros [b [k [E Ht]]]. apply app_inj_tail in E. destruct E as [<- _].
        apply H2. exists a, i; auto.
Qed.
Print Assumptions C12_coarsen_submesh_partial.

(** submesh 1 covers the second tree of [ex_f] down to [1;0;1;0]; its root-level
    child [1;0] is labelled 2, and so is [1;1]: after coarsening, [1;0;0] and
    [1;0;1] leave the submesh but the marked [1;0;1;0] stays *)
Definition ex_c : forest unit := fupd [1;0] (mark_here 2) ex_f.
Theorem C12_coarsen_rooted_refuted : exists (f : forest unit) s c,
  s <> c /\ rooted f s /\ (exists a, top_label f (Some s) c a) /\
  ~ rooted (fcoarsen (Some s) (Some c) None true f) s /\
  (* and the next operation on the submesh marks the removed objects again *)
  (forall x, marked_at (root_subtrees s (fcoarsen (Some s) (Some c) None true f)) x s = marked_at f x s).
Proof.
  exists (root_subtrees 1 ex_c), 1, 2. split; [discriminate|]. split; [apply root_subtrees_rooted|].
  split; [|split].
  - exists [1;0]. split; [|split].
    + apply in_sub_some. vm_compute. reflexivity.
    + vm_compute. reflexivity.
    + intros [a [i [r [E [H1 H2]]]]]. destruct a as [|x [|y a]].
      * destruct H1 as [n [Hn _]]; discriminate.
      * injection E as <- _ _. vm_compute in H2. discriminate.
      * injection E as _ _ E. destruct a; discriminate.
  - intro H. apply subtrees_rooted_iff in H. vm_compute in H. discriminate.
  - intro x.
    assert (G : forall f : forest unit, marked_at f x 1 = true <-> In x (map fst (ftraverse f (Some 1) DepthFirst))).
    { intro f. rewrite in_map_iff. unfold marked_at. split.
      - destruct (fget f x) as [n|] eqn:En; [|discriminate]. intro H. exists (x, n). split; [auto|apply in_ftraverse; auto].
      - intros [[y n] [Ey Hy]]. simpl in Ey. subst y. apply in_ftraverse in Hy. destruct Hy as [-> Hy]. exact Hy. }
    set (g := root_subtrees 1 (fcoarsen _ _ _ _ _)). set (h := root_subtrees 1 ex_c).
    assert (E : map fst (ftraverse g (Some 1) DepthFirst) = map fst (ftraverse h (Some 1) DepthFirst))
      by (vm_compute; reflexivity).
    pose proof (G g) as G1. pose proof (G h) as G2. rewrite E in G1. clearbody g h. clear G E.
    destruct (marked_at g x 1), (marked_at h x 1); auto; [symmetry|]; tauto.
Qed.
Print Assumptions C12_coarsen_rooted_refuted.

(** ** C13 *)
Lemma present_snoc {A} (f : forest A) a i n : fget f a = Some n ->
  (present f (a ++ [i]) = true <-> exists k, nth_error (n_slots n) i = Some (Some k)).
Proof.
  intro En. assert (a <> []) by (intros ->; discriminate). unfold present. rewrite fget_snoc, En by auto.
  destruct (nth_error (n_slots n) i) as [[k|]|]; split; intro H0; eauto; try discriminate; destruct H0; discriminate.
Qed.

Lemma here_last_gen {A} (f : forest A) a : fplaced f -> (here f None None a <-> last_gen f a).
Proof.
  intro HP. unfold here, coarsen_here. split.
  - intros [n [En [_ H]]]. assert (Ha : a <> []) by (intros ->; discriminate).
    destruct (has_children n None) eqn:Eh; [|discriminate].
    rewrite get_children_none, forallb_forall in H. split; auto. split.
    + apply has_children_fl in Eh. destruct Eh as [i [k [Ei _]]]. exists i. apply (present_snoc f a i n En); eauto.
    + intros i j. destruct (present f (a ++ [i; j])) eqn:E; auto. exfalso.
      assert (E1 : present f (a ++ [i]) = true).
      { apply (@present_parent A f (a ++ [i]) j []); [destruct a; discriminate|]. rewrite <- app_assoc; auto. }
      pose proof E1 as E0. apply (present_snoc f a i n En) in E1. destruct E1 as [k Ek].
      assert (Hk : In ([] ++ [i], k) (kids_of [] n)) by (apply in_kids_of; exists i; auto).
      specialize (H _ Hk). cbn [snd] in H.
      assert (Ef : fget f (a ++ [i]) = Some k) by (rewrite fget_snoc, En, Ek; auto).
      change (a ++ [i; j]) with (a ++ [i] ++ [j]) in E. rewrite app_assoc in E.
      apply (present_snoc f (a ++ [i]) j k Ef) in E. destruct E as [c Ec].
      destruct a as [|y a]; [tauto|]. simpl in Ef. destruct (nth_error f y) as [t|] eqn:Et; [|discriminate].
      destruct (HP y t Et) as [HPt _]. destruct (HPt (a ++ [i]) k Ef) as [_ [_ [T _]]].
      rewrite T in H. unfold expected_type in H.
      assert (X : existsb (fun b => b) (slot_shape (n_slots k)) = true).
      { rewrite has_children_shape. apply has_children_fl. exists j, c. split; auto. exact I. }
      rewrite X in H. destruct (a ++ [i]) eqn:Ea; [destruct a; discriminate|discriminate].
  - intros [Ha [[i Hi] H]].
    assert (exists n, fget f a = Some n).
    { apply present_some. apply (@present_parent A f a i []); auto. }
    destruct H0 as [n En]. exists n. split; auto. split; [exact I|].
    pose proof Hi as Hi'. apply (present_snoc f a i n En) in Hi. destruct Hi as [k Ek].
    assert (Eh : has_children n None = true) by (apply has_children_fl; exists i, k; split; [auto|exact I]).
    rewrite Eh, get_children_none, forallb_forall. intros [q c] Hc. apply in_kids_of in Hc.
    destruct Hc as [j [-> Ec]]. cbn [snd].
    assert (Ef : fget f (a ++ [j]) = Some c) by (rewrite fget_snoc, En, Ec; auto).
    assert (Hno : has_children c None = false).
    { rewrite has_children_false. intros l x El _. 
      assert (present f (a ++ [j; l]) = true).
      { change (a ++ [j; l]) with (a ++ [j] ++ [l]). rewrite app_assoc. apply (present_snoc f (a ++ [j]) l c Ef). eauto. }
      rewrite H in H0. discriminate. }
    destruct a as [|y a]; [tauto|]. simpl in Ef. destruct (nth_error f y) as [t|] eqn:Et; [|discriminate].
    destruct (HP y t Et) as [HPt _]. destruct (HPt (a ++ [j]) c Ef) as [_ [_ [T _]]].
    rewrite T. unfold expected_type. rewrite has_children_shape, Hno. destruct (a ++ [j]) eqn:Ea; [destruct a; discriminate|reflexivity].
Qed.

Theorem C13_coarsen : forall A clean (f : forest A), fplaced f ->
  let f' := fcoarsen None None None clean f in
  (* exactly the children of the nodes all of whose children are leaves are deleted *)
  (forall x, present f' x = true <->
     present f x = true /\ ~ exists a i, x = a ++ [i] /\ last_gen f a) /\
  (* the others keep everything; node type and children only change if children were deleted *)
  (forall x n n', fget f x = Some n -> fget f' x = Some n' ->
     body n' = body n /\ labels n' = labels n /\ (~ last_gen f x -> core n' = core n)) /\
  (* no deleted node has children *)
  (forall x i, present f x = true -> present f (x ++ [i]) = true -> x <> [] -> present f' x = true) /\
  fplaced f'.
Proof.
  intros A clean f HP f'. pose proof (fun a => here_last_gen f a HP) as HH.
  assert (HR : submesh_rooted f None) by exact I.
  assert (Ef' : f' = map (coarsen None None None clean) f) by reflexivity.
  assert (TOP : forall a b j r, last_gen f a -> a = b ++ j :: r -> ~ last_gen f b).
  { intros a b j r [Ha [[i Hi] Ha2]] -> [Hb [_ Hb2]].
    assert (present f (b ++ j :: r) = true) by (apply (@present_parent A f (b ++ j :: r) i []); auto).
    destruct r as [|k r].
    - specialize (Hb2 j i). rewrite <- app_assoc in Hi. simpl in Hi. congruence.
    - assert (present f (b ++ [j; k]) = true).
      { destruct r as [|l r]; auto. apply (@present_parent A f (b ++ [j; k]) l r); [destruct b; discriminate|].
        rewrite <- app_assoc. auto. }
      rewrite Hb2 in H0. discriminate. }
  assert (PRES : forall x, present f' x = true <-> present f x = true /\ ~ exists a i, x = a ++ [i] /\ last_gen f a).
  { intro x. split.
    - intro H. rewrite Ef' in H. split; [eapply coarsen_present; eauto|]. intros [a [i [-> Hg]]].
      apply present_some in H. destruct H as [n' En'].
      assert (P : present f (a ++ [i]) = true) by (eapply coarsen_present; apply present_some; eauto).
      apply present_some in P. destruct P as [n En].
      rewrite (coarsen_cut None None None clean f a i [] n HR) in En'; auto.
      + discriminate.
      + apply HH; auto.
      + intros b j r -> Hb. apply HH in Hb. exact (TOP _ b j r Hg eq_refl Hb).
    - intros [H1 H2]. rewrite Ef'. apply present_some in H1. destruct H1 as [n En]. apply present_some.
      destruct (topmost None None f x) as [HT|[a [i [r [-> [Ha _]]]]]].
      + exists (coarsen None None None clean n). apply coarsen_free; auto.
      + exfalso. apply HH in Ha. apply H2. exists a, i. split; auto.
        destruct r as [|j r]; auto. destruct Ha as [Hn [_ Ha]]. specialize (Ha i j).
        assert (present f (a ++ [i; j]) = true).
        { destruct r as [|l r]; [apply present_some; eauto|]. apply (@present_parent A f (a ++ [i; j]) l r); [destruct a; discriminate|].
          rewrite <- app_assoc. apply present_some; eauto. }
        congruence. }
  split; [exact PRES|]. split; [|split].
  - intros x n n' En En'. 
    assert (HF : forall a i r, x = a ++ i :: r -> ~ here f None None a).
    { intros a i r -> Ha. apply HH in Ha.
      assert (P : present f' (a ++ i :: r) = true) by (apply present_some; eauto). apply PRES in P. destruct P as [_ P].
      destruct r as [|j r]; [apply P; exists a, i; auto|].
      destruct Ha as [Hn [_ Ha]]. specialize (Ha i j).
      assert (present f (a ++ [i; j]) = true).
      { destruct r as [|l r]; [apply present_some; eauto|]. apply (@present_parent A f (a ++ [i; j]) l r); [destruct a; discriminate|].
        rewrite <- app_assoc. apply present_some; eauto. }
      congruence. }
    rewrite Ef' in En'. rewrite (coarsen_free None None None clean f x n HR En HF) in En'. injection En' as <-.
    destruct (coarsen_self None None None clean n I) as [L [B C]]. split; auto. split.
    + rewrite L. cbv zeta. destruct (coarsen_here n None None && clean); auto.
    + intro Hg. apply C. intros [Hh _]. apply Hg. apply HH. exists n. split; [auto|]. split; [exact I|auto].
  - intros x i H1 H2 Hx. apply PRES. split; auto. intros [a [j [-> [Ha [_ Hg]]]]].
    rewrite <- app_assoc in H2. simpl in H2. rewrite Hg in H2. discriminate.
  - rewrite Ef'. apply fplaced_map; auto. intros. apply Placed_coarsen; auto.
Qed.
Print Assumptions C13_coarsen.

Lemma refine_plain_labels {A} kid clean (f f' : forest A) x n n' :
  refine kid None None None clean f = Ok f' -> fget f x = Some n -> fget f' x = Some n' -> labels n' = labels n.
Proof.
  intros E En En'. destruct (refine_inv _ _ _ _ _ _ _ E) as [f2 [E2 E3]]. simpl in E3. subst f2. cbn [base] in E2.
  assert (HR : submesh_rooted f None) by exact I.
  destruct (leafp_dec None f x) as [[p [Hp [r Ex]]]|Hx].
  - destruct r as [|i r].
    + rewrite app_nil_r in Ex. subst p. destruct Hp as [m [Em Lm]].
      destruct (@loop_leaf A kid None None None clean f f' HR E2 x m Em Lm) as [m' [El Em']].
      destruct (refine_leaf_spec _ _ _ _ _ _ El) as [L _]. assert (m = n) by congruence. assert (m' = n') by congruence.
      subst. rewrite L. reflexivity.
    + exfalso. subst x. apply (leaf_no_below f None HR p i r Hp). exists n. split; [auto|exact I].
  - assert (O : fobs f' x = fobs f x).
    { apply (@loop_other A kid None None None clean f f' HR E2). intros p m Em Lm. apply Hx. exists m; auto. }
    apply fobs_inv in O. rewrite En, En' in O. destruct O as [_ O]; auto.
Qed.

Lemma slot_shape_ext {A} (l l' : list (option (node A))) : length l = length l' ->
  (forall i, (exists k, nth_error l i = Some (Some k)) <-> (exists k, nth_error l' i = Some (Some k))) ->
  slot_shape l = slot_shape l'.
Proof.
  revert l'. induction l as [|o l IH]; intros [|o' l'] HL H; simpl in *; auto; try discriminate. f_equal.
  - specialize (H 0). simpl in H. destruct o as [k|], o' as [k'|]; auto; exfalso.
    + destruct H as [H _]. destruct H as [z Hz]; [eauto|discriminate].
    + destruct H as [_ H]. destruct H as [z Hz]; [eauto|discriminate].
  - apply IH; [lia|]. intro i. apply (H (S i)).
Qed.

Theorem C13_coarsen_undoes_refine : forall A kid k clean clean' (f f' : forest A),
  0 < k -> uniform k f -> fplaced f ->
  refine kid None None None clean f = Ok f' ->
  fcoarsen None None None clean' f' = f.
Proof.
  intros A kid k clean clean' f f' Hk HU HP E.
  assert (D : distinct None None) by (intros a b H; discriminate).
  assert (HP' : fplaced f') by exact (@step_placed A kid f (ORefine None None None clean) f' E HP).
  destruct (C13_coarsen A clean' f' HP') as [C1 [C2 [_ C4]]]. set (f'' := fcoarsen None None None clean' f') in *.
  pose proof (@uniform_leaves A kid k clean f f' Hk HU E) as HL.
  pose proof (fun x => @refine_present A kid None None None clean f f' x D E) as HPR. cbn [base] in HPR.
  assert (HPR' : forall x, present f' x = true <-> present f x = true \/ exists p i, sub_leaf f None p /\ i < k /\ x = p ++ [i]).
  { intro x. rewrite HPR. split; (intros [H|H]; [left; auto|right]).
    - destruct H as [p [n [i [H1 [H2 [H3 [H4 ->]]]]]]]. exists p, i. destruct (HU p n H2) as [_ U].
      split; [eapply selected_leaf; eauto|]. split; [congruence|auto].
    - destruct H as [p [i [[n [En [H1 Ln]]] [Hi ->]]]].
      exists p, n, i. destruct (HU p n En) as [_ U]. split; [exists n; split; [auto|split; [split; auto|exact I]]|].
      split; auto. split; [rewrite has_children_false; auto|]. split; [congruence|auto]. }
  assert (NB : forall p i r, sub_leaf f None p -> present f (p ++ i :: r) = false).
  { intros p i r Hp. destruct (present f (p ++ i :: r)) eqn:Ep; auto. exfalso.
    apply (leaf_no_below f None I p i r Hp). apply in_sub_none; auto. }
  assert (LG : forall a, last_gen f' a <-> sub_leaf f None a).
  { intro a. split.
    - intros [Ha [[i Hi] H]].
      assert (Pa : present f a = true).
      { assert (P : present f' a = true) by (apply (@present_parent A f' a i []); auto).
        apply HPR' in P. destruct P as [P|[p [j [Hp [_ ->]]]]]; auto. exfalso.
        apply HPR' in Hi. destruct Hi as [Hi|[q [l [Hq [_ Eq]]]]].
        - rewrite <- app_assoc in Hi. simpl in Hi. rewrite NB in Hi; auto. discriminate.
        - apply child_inj in Eq. destruct Eq as [<- _]. apply sub_leaf_in, in_sub_none in Hq.
          rewrite (NB p j [] Hp) in Hq. discriminate. }
      apply sub_leaf_iff. split; [apply in_sub_none; auto|]. intros j Hj. apply in_sub_none in Hj.
      (* a child c of a: either a leaf of f, then it got children; or it has some *)
      apply present_some in Hj. destruct Hj as [c Ec].
      destruct (has_children c None) eqn:Ehc.
      + apply has_children_fl in Ehc. destruct Ehc as [l [x [El _]]].
        assert (present f' (a ++ [j; l]) = true).
        { apply HPR'. left. change (a ++ [j; l]) with (a ++ [j] ++ [l]). rewrite app_assoc.
          apply (present_snoc f (a ++ [j]) l c Ec). eauto. }
        rewrite H in H0. discriminate.
      + assert (Hl : sub_leaf f None (a ++ [j])).
        { exists c. split; auto. split; [exact I|]. rewrite has_children_false in Ehc. auto. }
        assert (present f' (a ++ [j; 0]) = true).
        { apply HPR'. right. exists (a ++ [j]), 0. split; auto. split; auto. rewrite <- app_assoc. auto. }
        rewrite H in H0. discriminate.
    - intro Hl. pose proof Hl as [n [En _]]. assert (Ha : a <> []) by (intros ->; discriminate). split; auto. split.
      + exists 0. apply HPR'. right. exists a, 0. auto.
      + intros i j. destruct (present f' (a ++ [i; j])) eqn:Ep; auto. exfalso.
        apply HPR' in Ep. destruct Ep as [Ep|[p [l [Hp [_ Eq]]]]].
        * rewrite NB in Ep; auto. discriminate.
        * change (a ++ [i; j]) with (a ++ [i] ++ [j]) in Eq. rewrite app_assoc in Eq. apply child_inj in Eq.
          destruct Eq as [<- _]. apply sub_leaf_in, in_sub_none in Hp. rewrite NB in Hp; auto. discriminate. }
  assert (PRES : forall x, present f'' x = present f x).
  { intro x. destruct (present f x) eqn:Ex.
    - apply C1. split; [apply HPR'; auto|]. intros [a [i [-> Ha]]]. apply LG in Ha. rewrite NB in Ex; auto. discriminate.
    - destruct (present f'' x) eqn:Ex''; auto. exfalso. apply C1 in Ex''. destruct Ex'' as [H1 H2].
      apply HPR' in H1. destruct H1 as [H1|[p [i [Hp [_ ->]]]]]; [congruence|].
      apply H2. exists p, i. split; auto. apply LG; auto. }
  apply fobs_ext. intro x. unfold fobs.
  destruct (fget f'' x) as [n''|] eqn:E''; destruct (fget f x) as [n|] eqn:En.
  - simpl. f_equal. 
    destruct (@refine_body A kid None None None clean f f' x n D E En) as [n' [En' [B1 _]]].
    destruct (C2 x n' n'' En' E'') as [B2 [L2 _]].
    pose proof (refine_plain_labels kid clean f f' x n n' E En En') as L1.
    assert (B : body n'' = body n) by congruence. assert (L : labels n'' = labels n) by congruence.
    unfold body in B. injection B as B_1 B_2 B_3 B_4 B_5 B_6.
    assert (SH : slot_shape (n_slots n'') = slot_shape (n_slots n)).
    { apply slot_shape_ext; auto. intro i. rewrite <- (present_snoc f'' x i n'' E''), <- (present_snoc f x i n En), PRES. tauto. }
    assert (T : m_type (n_meta n'') = m_type (n_meta n)).
    { destruct x as [|y x]; [discriminate|]. simpl in E'', En.
      destruct (nth_error f'' y) as [t''|] eqn:T''; [|discriminate]. destruct (nth_error f y) as [t|] eqn:Tt; [|discriminate].
      destruct (C4 y t'' T'') as [Q1 _]. destruct (HP y t Tt) as [Q2 _].
      destruct (Q1 x n'' E'') as [_ [_ [-> _]]]. destruct (Q2 x n En) as [_ [_ [-> _]]].
      unfold expected_type. rewrite SH. auto. }
    unfold obs. rewrite SH, B_5. unfold labels in L. destruct (n_meta n''), (n_meta n). simpl in *. congruence.
  - exfalso. specialize (PRES x). unfold present in PRES. rewrite E'', En in PRES. discriminate.
  - exfalso. specialize (PRES x). unfold present in PRES. rewrite E'', En in PRES. discriminate.
  - auto.
Qed.
Print Assumptions C13_coarsen_undoes_refine.

(** ** C15 *)
Theorem C15_is_contained_in_spec : forall A (f : forest A) t r,
  is_contained_in f (Some t) (Some r) = true <->
  forall x, sub_leaf f (Some t) x -> exists q, q <> [] /\ prefix q x /\ marked_at f q r = true.
Proof.
  intros A f t r. unfold is_contained_in. destruct (Nat.eqb_spec r t) as [->|Hrt].
  - split; auto. intros _ x Hx. exists x. pose proof Hx as [n [En _]].
    split; [intros ->; discriminate|]. split; [apply prefix_refl|]. apply in_sub_some, sub_leaf_in; auto.
  - rewrite forallb_forall. split.
    + intros H x [n [En Ln]]. specialize (H (x, n)). cbn [fst snd] in H.
      assert (Hin : In (x, n) (fget_leaves f None (Some t) BreadthFirst)) by (apply in_fget_leaves; simpl; auto).
      specialize (H Hin). destruct (is_marked n (Some r)) eqn:Em.
      * exists x. split; [intros ->; discriminate|]. split; [apply prefix_refl|]. rewrite <- (is_marked_at _ _ r En); auto.
      * destruct (get_parent_flag f x (Some r)) as [a|] eqn:Eg; [|discriminate].
        unfold get_parent_flag in Eg. apply find_some in Eg. destruct Eg as [Ha Hm].
        apply in_ancestors in Ha. destruct Ha as [Hn [i [rr ->]]]. exists a. split; auto. split; [apply prefix_app|].
        unfold marked_at. destruct (fget f a); auto.
    + intros H [x n] Hin. cbn [fst snd]. apply in_fget_leaves in Hin. destruct Hin as [En Ln].
      destruct (H x) as [q [Hq [[s ->] Hm]]]; [exists n; tauto|].
      destruct s as [|i s].
      * rewrite app_nil_r in En. rewrite (is_marked_at _ _ r En), Hm; auto.
      * destruct (is_marked n (Some r)); auto.
        destruct (get_parent_flag f (q ++ i :: s) (Some r)) eqn:Eg; auto.
        unfold get_parent_flag in Eg. pose proof (find_none _ _ Eg q) as F. cbv beta in F.
        assert (In q (ancestors (q ++ i :: s))) by (apply in_ancestors; split; eauto).
        specialize (F H0). unfold marked_at in Hm. destruct (fget f q); [congruence|discriminate].
Qed.
Print Assumptions C15_is_contained_in_spec.

(** reflexive, and transitive on rooted submeshes: because it is True whenever
    the reference submesh is rooted *)
Theorem C15_rooted_reference_always_true : forall A (f : forest A) t r,
  rooted f r -> is_contained_in f t (Some r) = true.
Proof.
  intros A f [t|] r [R1 _]; [|reflexivity]. apply C15_is_contained_in_spec. intros x [n [En _]].
  destruct x as [|i x]; [discriminate|]. exists [i]. split; [discriminate|]. split; [exists x; auto|].
  apply R1. unfold present. simpl in *. destruct (nth_error f i); [auto|discriminate].
Qed.
Print Assumptions C15_rooted_reference_always_true.

(** the property "test is a refinement of reference": every leaf of the test
    submesh lies in a leaf of the reference submesh *)
Definition refines {A} (f : forest A) (t r : flag) : Prop :=
  forall x, sub_leaf f (Some t) x -> exists q, prefix q x /\ sub_leaf f (Some r) q.
Theorem C15_decides_refinement_refuted : exists (f : forest unit) t r,
  rooted f t /\ rooted f r /\ is_contained_in f (Some t) (Some r) = true /\ ~ refines f t r.
Proof.
  (* reference: closure of [1;0;1;0]; test: roots only *)
  exists (root_subtrees 5 (root_subtrees 1 ex_f)), 5, 1.
  assert (R1 : rooted (root_subtrees 5 (root_subtrees 1 ex_f)) 1).
  { apply subtrees_rooted_iff. vm_compute. reflexivity. }
  split; [apply root_subtrees_rooted|]. split; [auto|]. split; [apply C15_rooted_reference_always_true; auto|].
  intro H. destruct (H [1]) as [q [[r E] Hq]].
  - apply (in_leaves_sub _ _ DepthFirst). vm_compute. auto.
  - destruct q as [|a q]; [destruct Hq as [n [Hn _]]; discriminate|].
    injection E as <- E. destruct q; [|discriminate].
    apply (in_leaves_sub _ _ DepthFirst) in Hq. vm_compute in Hq. intuition discriminate.
Qed.
Print Assumptions C15_decides_refinement_refuted.

(** ** Concrete cases *)
(** a forest built through the API, so that [fplaced] holds (C06) *)
Definition ex_ops : list (@op unit) :=
  [OAddTree 2 tt; OSplit [0]; OSplit [0;0]; OSplit [0;0;1]; OAddTree 2 tt; OSplit [1];
   OMark [0;0;1;0] 1; OMark [0;0] 2].
Definition ex_p : forest unit := of_res [] (run ukid [] ex_ops).
Lemma ex_p_placed : fplaced ex_p.
Proof.
  apply (@run_placed unit ukid ex_ops []); [reflexivity|]. intros i t H. destruct i; discriminate.
Qed.
Example C13_example :
  map fst (ftraverse ex_p None DepthFirst) =
    [[0];[0;0];[0;0;0];[0;0;1];[0;0;1;0];[0;0;1;1];[0;1];[1];[1;0];[1;1]] /\
  map fst (ftraverse (fcoarsen None None None true ex_p) None DepthFirst) =
    [[0];[0;0];[0;0;0];[0;0;1];[0;1];[1]].
Proof. vm_compute. auto. Qed.
Lemma ex_p_uniform : uniform 2 ex_p.
Proof.
  intros p n En. assert (H : In (p, n) (ftraverse ex_p None DepthFirst)).
  { apply in_ftraverse. split; auto. exact I. }
  revert H. clear. intro H. cbv in H. repeat (destruct H as [H|H]; [injection H as <- <-; split; reflexivity|]). destruct H.
Qed.
Example C13_undo_example : exists f', refine ukid None None None true ex_p = Ok f' /\ f' <> ex_p /\
  fcoarsen None None None true f' = ex_p.
Proof.
  destruct (@refine_total unit ukid None None None true ex_p) as [f' E]; [intros p n En; apply (ex_p_uniform p n En)|].
  exists f'. split; auto. split.
  - intros ->. vm_compute in E. discriminate.
  - eapply (C13_coarsen_undoes_refine unit ukid 2); eauto using ex_p_uniform, ex_p_placed.
Qed.
(** submesh 1 rooted; [0;0] labelled 2: coarsen into submesh 3 *)
Example C14_example :
  map fst (fget_leaves (fcoarsen (Some 1) (Some 2) (Some 3) true ex_p) None (Some 3) DepthFirst) = [[0;0];[0;1];[1]] /\
  map fst (fget_leaves (fcoarsen (Some 1) (Some 2) (Some 3) true ex_p) None (Some 1) DepthFirst) =
     [[0;0;0];[0;0;1;0];[0;0;1;1];[0;1];[1]].
Proof. vm_compute. auto. Qed.
Example C12_example :
  (* [0;0;1] labelled instead: no grandchildren in the submesh, so it stays rooted *)
  let f := fupd [0;0;1] (mark_here 4) ex_p in
  subtrees_rooted (Some 1) (fcoarsen (Some 1) (Some 4) None true f) = true /\
  map fst (fget_leaves (fcoarsen (Some 1) (Some 4) None true f) None (Some 1) DepthFirst) = [[0;0;0];[0;0;1];[0;1];[1]].
Proof. vm_compute. auto. Qed.

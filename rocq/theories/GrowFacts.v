(** Operations that keep all cells of a mesh *)
From Coq Require Import List Arith Bool Lia.
Import ListNotations.
From Verif Require Import Tree Forest SpecForest TreeFacts ForestFacts LabelFacts RootFacts PlaceFacts RefineFacts RefineFacts2
  History GenFacts Geom Fem Dof SpecDof.
Open Scope nat_scope.

Section grow.
Context {A : Type}.
(** the mesh [f'] has all the cells of [f], and the same roots *)
Definition like (n n' : node A) : Prop := n_data n' = n_data n /\ n_children n' = n_children n.
Definition grows (f f' : forest A) : Prop :=
  length f' = length f /\ forall p n, fget f p = Some n -> exists n', fget f' p = Some n' /\ like n n'.
Definition ext (n n' : node A) : Prop := forall r k, nget n r = Some k -> exists k', nget n' r = Some k' /\ like k k'.
Lemma like_refl n : like n n. Proof. split; auto. Qed.
Lemma like_trans a b c : like a b -> like b c -> like a c.
Proof. intros [H1 H2] [H3 H4]. split; congruence. Qed.
Lemma ext_refl n : ext n n. Proof. intros r k H. exists k. split; auto. apply like_refl. Qed.
Lemma ext_trans a b c : ext a b -> ext b c -> ext a c.
Proof. intros H1 H2 r k H. destruct (H1 r k H) as [k1 [E1 D1]]. destruct (H2 r k1 E1) as [k2 [E2 D2]]. exists k2. split; auto. eapply like_trans; eauto. Qed.
Lemma ext_slots n n' : like n n' ->
  (forall i k, nth_error (n_slots n) i = Some (Some k) -> exists k', nth_error (n_slots n') i = Some (Some k') /\ ext k k') -> ext n n'.
Proof.
  intros D H [|i r] k E; cbn in E |- *.
  - injection E as <-. eauto.
  - destruct (nth_error (n_slots n) i) as [[x|]|] eqn:Ei; try discriminate. destruct (H i x Ei) as [x' [Ex X]]. rewrite Ex. apply X. auto.
Qed.
Lemma ext_same n n' : n_data n' = n_data n -> n_slots n' = n_slots n -> ext n n'.
Proof. intros D H. apply ext_slots; [split; auto; unfold n_children; congruence|]. intros i k E. rewrite H. exists k. split; auto. apply ext_refl. Qed.
Lemma ext_mark g n : ext n (mark_here g n). Proof. apply ext_same; destruct n; auto. Qed.
Lemma ext_unmark g n : ext n (unmark_here g n). Proof. apply ext_same; destruct n; destruct g; auto. Qed.
Lemma ext_map_kids h n : (forall k, ext k (h k)) -> ext n (map_kids h n).
Proof.
  intro H. destruct n as [m d ks]. apply ext_slots; [split; [auto|apply map_length]|]. cbn [map_kids n_slots]. intros i k E. exists (h k). split; auto.
  rewrite nth_error_map, E. reflexivity.
Qed.
Lemma ext_mark_rec g : forall n, ext n (mark_rec g n).
Proof.
  induction n as [m d ks IH] using node_ind'. apply ext_slots; [split; [auto|apply map_length]|]. cbn [mark_rec n_slots]. intros i k E. exists (mark_rec g k).
  split; [rewrite nth_error_map, E; reflexivity|eauto].
Qed.
Lemma ext_unmark_rec g : forall n, ext n (unmark_rec g n).
Proof.
  induction n as [m d ks IH] using node_ind'. apply ext_slots; [split; [auto|apply map_length]|]. cbn [unmark_rec n_slots]. intros i k E. exists (unmark_rec g k).
  split; [rewrite nth_error_map, E; reflexivity|eauto].
Qed.
Lemma no_kids (n : node A) i k : has_children n None = false -> nth_error (n_slots n) i <> Some (Some k).
Proof.
  intros H E. unfold has_children in H. assert (X : existsb (fun o => match o with Some _ => true | None => false end) (n_slots n) = true); [|congruence].
  apply existsb_exists. exists (Some k). split; auto. eapply nth_error_In; eauto.
Qed.
Lemma ext_split kid n n' : has_children n None = false -> split kid n = Ok n' -> ext n n'.
Proof.
  intros H E. apply ext_slots; [|intros i k Ei; exfalso; eapply no_kids; eauto].
  destruct n as [m d ks]. cbn in E. destruct (m_regular m); [|destruct ks; discriminate]. injection E as <-. split; [reflexivity|]. unfold n_children. cbn [n_slots]. rewrite map_length, seq_length. auto.
Qed.
Lemma ext_refine_leaf kid sf rf nl clean n n' : refine_leaf kid sf rf nl clean n = Ok n' -> ext n n'.
Proof.
  unfold refine_leaf. set (n1 := match nl with Some l => mark_here l n | None => n end).
  assert (E1 : ext n n1) by (unfold n1; destruct nl; [apply ext_mark|apply ext_refl]).
  destruct (match rf with Some _ => negb (is_marked n1 rf) | None => false end); [intro E; injection E as <-; auto|].
  destruct (if has_children n1 None then Ok n1 else split kid n1) as [n2|] eqn:E2; cbn [bind]; [|discriminate]. intro E.
  assert (X2 : ext n1 n2) by (destruct (has_children n1 None) eqn:HC; [injection E2 as <-; apply ext_refl|eapply ext_split; eauto]).
  assert (X3 : ext n2 (label_kids sf nl n2)).
  { unfold label_kids. destruct nl; [apply ext_map_kids; intro; apply ext_mark|]. destruct sf; [apply ext_map_kids; intro; apply ext_mark|apply ext_refl]. }
  assert (X4 : n' = label_kids sf nl n2 \/ n' = unmark_here rf (label_kids sf nl n2)) by (destruct rf; [destruct clean|]; injection E as <-; auto).
  eapply ext_trans; [exact E1|]. eapply ext_trans; [exact X2|]. eapply ext_trans; [exact X3|].
  destruct X4 as [->| ->]; [apply ext_refl|apply ext_unmark].
Qed.
Lemma grows_refl (f : forest A) : grows f f. Proof. split; auto. intros p n E. exists n. split; auto. apply like_refl. Qed.
Lemma grows_trans (f g h : forest A) : grows f g -> grows g h -> grows f h.
Proof.
  intros [L1 H1] [L2 H2]. split; [congruence|]. intros p n E. destruct (H1 p n E) as [n1 [E1 D1]]. destruct (H2 p n1 E1) as [n2 [E2 D2]].
  exists n2. split; auto. eapply like_trans; eauto.
Qed.
Lemma ext_nupd : forall p g n x, nget n p = Some x -> ext x (g x) -> ext n (nupd p g n).
Proof.
  induction p as [|i p IH]; intros g n x E X; cbn in E |- *.
  - injection E as <-. auto.
  - destruct n as [m d ks]. cbn [n_slots] in E. destruct (nth_error ks i) as [[k|]|] eqn:Ei; try discriminate.
    apply ext_slots; [split; [auto|apply set_nth_length]|]. cbn [n_slots]. intros j y Ej.
    destruct (Nat.eq_dec j i) as [->|N].
    + rewrite nth_set_nth_eq by (apply nth_error_Some; congruence). assert (y = k) by congruence. subst y.
      exists (nupd p g k). split; auto. eapply IH; eauto.
    + rewrite nth_set_nth_neq by auto. exists y. split; auto. apply ext_refl.
Qed.
Lemma grows_roots (f f' : forest A) : length f' = length f -> (forall i t, nth_error f i = Some t -> exists t', nth_error f' i = Some t' /\ ext t t') -> grows f f'.
Proof.
  intros L H. split; auto. intros [|i r] n E; [discriminate|]. cbn in E |- *. destruct (nth_error f i) as [t|] eqn:Et; [|discriminate].
  destruct (H i t Et) as [t' [-> X]]. apply X. auto.
Qed.
Lemma grows_fupd p g (f : forest A) : (forall x, fget f p = Some x -> ext x (g x)) -> grows f (fupd p g f).
Proof.
  intro X. apply grows_roots; [apply fupd_length|]. intros i t Et. destruct p as [|j r]; cbn [fupd]; [exists t; split; auto; apply ext_refl|].
  destruct (nth_error f j) as [u|] eqn:Eu; [|exists t; split; auto; apply ext_refl].
  destruct (Nat.eq_dec i j) as [->|N].
  - rewrite nth_set_nth_eq by (apply nth_error_Some; congruence). assert (u = t) by congruence. subst u. exists (nupd r g t). split; auto.
    destruct (nget t r) as [x|] eqn:Er; [eapply ext_nupd; eauto; apply X; cbn; rewrite Eu; auto|].
    clear - Er. revert t Er. induction r as [|k r IH]; intros t Er; cbn in Er |- *; [discriminate|]. destruct t as [m d ks]. cbn [n_slots] in Er.
    destruct (nth_error ks k) as [[y|]|] eqn:Ek; try apply ext_refl. apply ext_slots; [split; [auto|apply set_nth_length]|]. cbn [n_slots]. intros j z Ej.
    destruct (Nat.eq_dec j k) as [->|N].
    + rewrite nth_set_nth_eq by (apply nth_error_Some; congruence). assert (z = y) by congruence. subst z. exists (nupd r g y). split; auto.
    + rewrite nth_set_nth_neq by auto. exists z. split; auto. apply ext_refl.
  - rewrite nth_set_nth_neq by auto. exists t. split; auto. apply ext_refl.
Qed.
Lemma grows_same E (f f' : forest A) : same_but E f f' -> grows f f'.
Proof.
  intro S. split.
  - assert (H : forall i, nth_error f i = None <-> nth_error f' i = None).
    { intro i. specialize (S [i]). cbn in S. destruct (nth_error f i), (nth_error f' i); cbn in S; split; intro; try congruence; tauto. }
    destruct (Nat.lt_trichotomy (length f) (length f')) as [L|[L|L]]; auto; exfalso.
    + apply (proj2 (nth_error_Some f' (length f)) L). apply H. apply nth_error_None. lia.
    + apply (proj2 (nth_error_Some f (length f')) L). apply H. apply nth_error_None. lia.
  - intros p n En. destruct (same_get f f' E p n S En) as [n' [E' C]]. exists n'. split; auto. split; [unfold core in C; congruence|]. symmetry. apply (core_slots n n'). auto.
Qed.
Lemma grows_at p (g : node A -> res (node A)) f f' : at_node p g f = Ok f' ->
  (forall n n', fget f p = Some n -> g n = Ok n' -> ext n n') -> grows f f'.
Proof.
  unfold at_node. intros E X. destruct (fget f p) as [n|] eqn:En; [|discriminate]. destruct (g n) as [n'|] eqn:Eg; [|discriminate].
  injection E as <-. apply grows_fupd. intros x Ex. assert (x = n) by congruence. subst x. eauto.
Qed.
Lemma grows_fold {X} (h : X -> path) (g : X -> node A -> node A) : (forall x n, ext n (g x n)) -> forall l f,
  grows f (fold_left (fun f x => fupd (h x) (g x) f) l f).
Proof.
  intro H. induction l as [|x l IH]; intro f; cbn [fold_left]; [apply grows_refl|]. eapply grows_trans; [|apply IH].
  apply grows_fupd. intros n _. apply H.
Qed.
Lemma grows_base (f : forest A) sf : grows f (base f sf).
Proof. destruct sf as [s|]; [|apply grows_refl]. cbn. eapply grows_same. apply root_subtrees_same. Qed.
Lemma grows_refine kid sf rf nl clean (f f' : forest A) : refine kid sf rf nl clean f = Ok f' -> grows f f'.
Proof.
  intro E. destruct (refine_inv _ _ _ _ _ _ _ E) as [f2 [E2 ->]].
  eapply grows_trans; [apply (grows_base f sf)|]. eapply grows_trans; [|apply grows_base].
  revert E2. generalize (map fst (fget_leaves (base f sf) None sf BreadthFirst)). generalize (base f sf). intros g l. revert g.
  induction l as [|p l IH]; intros g E2; cbn [fold_res] in E2; [injection E2 as <-; apply grows_refl|].
  unfold refine_step in E2 at 1. destruct (fget g p) as [n|] eqn:En; cbn [bind] in E2; [|discriminate].
  destruct (refine_leaf kid sf rf nl clean n) as [n'|] eqn:El; cbn [bind] in E2; [|discriminate].
  eapply grows_trans; [|apply IH; exact E2]. apply grows_fupd. intros x Ex. assert (x = n) by congruence. subst x. eapply ext_refine_leaf; eauto.
Qed.
Lemma grows_step kid (f f' : forest A) o : growing f o -> step kid f o = Ok f' -> grows f f'.
Proof.
  intros G E. destruct o; cbn [growing] in G; try contradiction; cbn [step] in E.
  - eapply grows_at; eauto. intros n n' En Es. eapply ext_split; eauto.
  - eapply grows_at; eauto. intros n n' _ Es. injection Es as <-. apply ext_mark.
  - eapply grows_at; eauto. intros n n' _ Es. injection Es as <-. apply ext_unmark.
  - eapply grows_at; eauto. intros n n' _ Es. injection Es as <-. apply ext_mark_rec.
  - eapply grows_at; eauto. intros n n' _ Es. injection Es as <-. apply ext_unmark_rec.
  - injection E as <-. apply (grows_fold (fun a => a) (fun _ => mark_here g)). intros; apply ext_mark.
  - injection E as <-. apply (grows_fold (fun a => a) (fun _ => unmark_here g)). intros; apply ext_unmark.
  - injection E as <-. apply (grows_base f (Some s)).
  - injection E as <-. apply grows_roots; [apply map_length|]. intros i t Et. exists (mark_rec s t). split; [|apply ext_mark_rec].
    unfold record_flag. rewrite nth_error_map, Et. reflexivity.
  - eapply grows_refine; eauto.
Qed.
Lemma growing_plain f (o : @op A) : growing f o -> plain o.
Proof. destruct o; cbn; auto. Qed.
End grow.

(** Recursive marking; the rootedness tests. *)
From Coq Require Import List Arith Bool Lia.
Import ListNotations.
From Verif Require Import Tree Forest SpecForest TreeFacts ForestFacts LabelFacts.
Set Implicit Arguments.

Lemma nget_mark_rec {A} s (n : node A) r : nget (mark_rec s n) r = option_map (mark_rec s) (nget n r).
Proof.
  revert n; induction r as [|i r IH]; intros [m d ks]; auto. simpl. rewrite nth_error_map.
  destruct (nth_error ks i) as [[k|]|]; simpl; auto.
Qed.
Lemma nget_unmark_rec {A} s (n : node A) r : nget (unmark_rec s n) r = option_map (unmark_rec s) (nget n r).
Proof.
  revert n; induction r as [|i r IH]; intros [m d ks]; auto. simpl. rewrite nth_error_map.
  destruct (nth_error ks i) as [[k|]|]; simpl; auto.
Qed.
Lemma core_mark_rec {A} s (n : node A) : core (mark_rec s n) = core n /\ labels (mark_rec s n) = add_flag s (labels n).
Proof.
  destruct n as [m d ks]. unfold core, labels; simpl. split; auto.
  f_equal. unfold slot_shape. rewrite map_map. apply map_ext. intros [k|]; auto.
Qed.
Definition unlab (s : option flag) (l : list flag) := match s with None => [] | Some g => del_flag g l end.
Lemma core_unmark_rec {A} s (n : node A) : core (unmark_rec s n) = core n /\ labels (unmark_rec s n) = unlab s (labels n).
Proof.
  destruct n as [m d ks]. unfold core, labels; simpl.
  assert (E : slot_shape (map (fun o => match o with Some k => Some (unmark_rec s k) | None => None end) ks)
              = slot_shape ks).
  { unfold slot_shape. rewrite map_map. apply map_ext. intros [k|]; auto. }
  rewrite E. destruct s; auto.
Qed.

Definition prefixb (p q : path) : bool := if prefix_dec p q then true else false.
Lemma prefixb_true p q : prefixb p q = true <-> prefix p q.
Proof. unfold prefixb; destruct (prefix_dec p q); split; congruence || tauto. Qed.

Lemma relabelled_subtree {A} p (g : node A -> node A) (lab : list flag -> list flag) (f : forest A) :
  p <> [] ->
  (forall n r, match nget n r, nget (g n) r with
               | Some k, Some k' => core k = core k' /\ labels k' = lab (labels k)
               | None, None => True | _, _ => False end) ->
  relabelled f (fupd p g f) (fun q l => if prefixb p q then lab l else l).
Proof.
  intros Hp Hg q. unfold prefixb. destruct (prefix_dec p q) as [[r ->]|H1].
  - rewrite fget_fupd_below by auto. destruct p as [|i p]; [tauto|]. rewrite fget_app.
    destruct (fget f (i :: p)) as [n|]; auto. apply Hg.
  - destruct (prefix_dec q p) as [[r ->]|H2].
    + destruct r as [|i r]; [exfalso; apply H1; rewrite app_nil_r; apply prefix_refl|].
      pose proof (fobs_fupd_above q i r g f) as H. apply fobs_inv in H.
      destruct (fget f q), (fget (fupd (q ++ i :: r) g f) q); auto.
    + rewrite fget_fupd_off; auto. destruct (fget f q); auto.
Qed.
Lemma relabelled_mark_rec {A} p s (f : forest A) : p <> [] ->
  relabelled f (fupd p (mark_rec s) f) (fun q l => if prefixb p q then add_flag s l else l).
Proof.
  intro Hp. apply relabelled_subtree; auto. intros n r. rewrite nget_mark_rec.
  destruct (nget n r) as [k|]; simpl; auto. destruct (core_mark_rec s k); auto.
Qed.
Lemma relabelled_unmark_rec {A} p s (f : forest A) : p <> [] ->
  relabelled f (fupd p (unmark_rec s) f) (fun q l => if prefixb p q then unlab s l else l).
Proof.
  intro Hp. apply relabelled_subtree; auto. intros n r. rewrite nget_unmark_rec.
  destruct (nget n r) as [k|]; simpl; auto. destruct (core_unmark_rec s k); auto.
Qed.
Lemma relabelled_fold {A} (g : path -> node A -> node A) (lab : list flag -> list flag) l (f : forest A) :
  NoDup l ->
  (forall a f, relabelled f (fupd a (g a) f) (fun q x => if peq a q then lab x else x)) ->
  relabelled f (fold_left (fun f a => fupd a (g a) f) l f)
    (fun q x => if existsb (fun a => peq a q) l then lab x else x).
Proof.
  intros ND H. revert f; induction l as [|a l IH]; intro f; simpl.
  - intro q. destruct (fget f q); auto.
  - inversion ND as [|? ? Ha Hl]; subst. pose proof (relabelled_compose (H a f) (IH Hl _)) as R.
    intro q. specialize (R q). simpl in R. destruct (fget f q); auto.
    destruct (fget (fold_left (fun f0 a0 => fupd a0 (g a0) f0) l (fupd a (g a) f)) q); auto.
    destruct R as [C L]; split; auto. rewrite L. destruct (peq a q) eqn:E; simpl; auto.
    apply peq_true in E; subst q.
    destruct (existsb (fun a0 => peq a0 a) l) eqn:E2; auto.
    apply existsb_exists in E2. destruct E2 as [x [Hx Ex]]. apply peq_true in Ex; subst. tauto.
Qed.

Lemma anc_up_shorter n p a : In a (anc_up n p) -> length a < length p.
Proof.
  revert p a; induction n as [|n IH]; intros p a; simpl; [tauto|].
  destruct (removelast p) as [|y b] eqn:E; [simpl; tauto|].
  assert (Lb : length (removelast p) < length p).
  { destruct p as [|x p]; [discriminate|].
    assert (H : x :: p <> []) by discriminate.
    pose proof (app_removelast_last 0 H) as E'. apply (f_equal (@length nat)) in E'.
    rewrite app_length in E'. cbn [length] in *. lia. }
  rewrite E in Lb. intros [<-|H]; auto. apply IH in H. lia.
Qed.
Lemma anc_up_nodup n p : NoDup (anc_up n p).
Proof.
  revert p; induction n as [|n IH]; intro p; simpl; [constructor|].
  destruct (removelast p) as [|y b] eqn:E; constructor; auto.
  intro H. apply anc_up_shorter in H. lia.
Qed.
Lemma self_ancestors_nodup p : NoDup (p :: ancestors p).
Proof.
  constructor; [|apply anc_up_nodup]. intro H. apply anc_up_shorter in H. lia.
Qed.

Lemma self_or_anc p q : p <> [] ->
  (In q (p :: ancestors p) <-> q <> [] /\ prefix q p).
Proof.
  intro Hp. simpl. rewrite in_ancestors. split.
  - intros [<-|[H1 [i [r ->]]]]; split; auto.
    + apply prefix_refl.
    + apply prefix_app.
  - intros [H1 [r ->]]. destruct r as [|i r]; [left; rewrite app_nil_r; auto|right; eauto].
Qed.
Lemma existsb_peq q l : existsb (fun a => peq a q) l = true <-> In q l.
Proof.
  rewrite existsb_exists. split.
  - intros [x [H E]]. apply peq_true in E; subst; auto.
  - intro H; exists q; split; auto. apply peq_true; auto.
Qed.
Lemma relabelled_mark_up {A} p s (f : forest A) :
  relabelled f (mark_up s p f)
    (fun q x => if existsb (fun a => peq a q) (p :: ancestors p) then add_flag s x else x).
Proof.
  unfold mark_up. apply (@relabelled_fold A (fun _ => mark_here s)).
  - apply self_ancestors_nodup.
  - intros a g. apply relabelled_mark.
Qed.
Lemma relabelled_unmark_up {A} p s (f : forest A) :
  relabelled f (unmark_up s p f)
    (fun q x => if existsb (fun a => peq a q) (p :: ancestors p) then unlab s x else x).
Proof.
  unfold unmark_up. apply (@relabelled_fold A (fun _ => unmark_here s)).
  - apply self_ancestors_nodup.
  - intros a g. apply relabelled_unmark.
Qed.

(** ** subtrees_rooted *)
Lemma is_marked_at {A} (f : forest A) p n s : fget f p = Some n -> is_marked n (Some s) = marked_at f p s.
Proof. intro H. unfold marked_at; rewrite H; auto. Qed.

Theorem subtrees_rooted_iff {A} (f : forest A) s :
  subtrees_rooted (Some s) f = true <-> rooted f s.
Proof.
  unfold subtrees_rooted. rewrite forallb_forall. split.
  - intro H. split; [|split].
    + intros i Hi. unfold present in Hi; simpl in Hi.
      destruct (nth_error f i) as [t|] eqn:E; [|discriminate].
      assert (I : In ([i], t) (roots f)) by (apply in_roots; eauto).
      specialize (H _ I). simpl in H. apply andb_true_iff in H. destruct H as [H _].
      unfold marked_at; simpl; rewrite E; auto.
    + intros a i r Ha Hm. pose proof (marked_present _ _ _ Hm) as P. unfold present in P.
      destruct a as [|x a]; [tauto|].
      destruct (fget f ((x :: a) ++ i :: r)) as [n|] eqn:En; [|discriminate].
      simpl in En. destruct (nth_error f x) as [t|] eqn:Et; [|discriminate].
      assert (I : In ([x], t) (roots f)) by (apply in_roots; eauto).
      specialize (H _ I). cbn [fst snd] in H. apply andb_true_iff in H. destruct H as [_ H].
      rewrite forallb_forall in H.
      assert (I2 : In ((x :: a) ++ i :: r, n) (traverse [x] t None DepthFirst)).
      { apply in_traverse. split; [|exact I0 || exact Logic.I]. exists (a ++ i :: r); auto. }
      specialize (H _ I2). cbn [fst snd] in H.
      assert (En' : fget f ((x :: a) ++ i :: r) = Some n) by (simpl; rewrite Et; auto).
      rewrite (is_marked_at _ _ s En'), Hm in H. rewrite forallb_forall in H.
      assert (I3 : In (x :: a) (ancestors ((x :: a) ++ i :: r))).
      { apply in_ancestors; split; [discriminate|eauto]. }
      specialize (H _ I3). destruct (fget f (x :: a)) as [na|] eqn:Ena; [|discriminate].
      apply andb_true_iff in H. destruct H as [H _]. rewrite (is_marked_at _ _ s Ena) in H; auto.
    + intros a i j Ha Hm HP. pose proof (marked_present _ _ _ Hm) as P. unfold present in P, HP.
      destruct a as [|x a]; [tauto|].
      destruct (fget f ((x :: a) ++ [i])) as [n|] eqn:En; [|discriminate].
      simpl in En. destruct (nth_error f x) as [t|] eqn:Et; [|discriminate].
      assert (I : In ([x], t) (roots f)) by (apply in_roots; eauto).
      specialize (H _ I). cbn [fst snd] in H. apply andb_true_iff in H. destruct H as [_ H].
      rewrite forallb_forall in H.
      assert (I2 : In ((x :: a) ++ [i], n) (traverse [x] t None DepthFirst)).
      { apply in_traverse. split; [|exact Logic.I]. exists (a ++ [i]); auto. }
      specialize (H _ I2). cbn [fst snd] in H.
      assert (En' : fget f ((x :: a) ++ [i]) = Some n) by (simpl; rewrite Et; auto).
      rewrite (is_marked_at _ _ s En'), Hm in H. rewrite forallb_forall in H.
      assert (I3 : In (x :: a) (ancestors ((x :: a) ++ [i]))).
      { apply in_ancestors; split; [discriminate|eauto]. }
      specialize (H _ I3). destruct (fget f (x :: a)) as [na|] eqn:Ena; [|discriminate].
      apply andb_true_iff in H. destruct H as [_ H]. rewrite forallb_forall in H.
      destruct (fget f ((x :: a) ++ [j])) as [k|] eqn:Ek; [|discriminate].
      rewrite <- (is_marked_at _ _ s Ek).
      apply (H ((x :: a) ++ [j], k)). rewrite get_children_none. apply in_kids_of.
      exists j; split; auto. rewrite fget_snoc, Ena in Ek by discriminate.
      destruct (nth_error (n_slots na) j) as [[c|]|]; congruence.
  - intros HR [p t] Hin. apply in_roots in Hin. destruct Hin as [x [-> Et]]. cbn [fst snd].
    pose proof HR as [C1 [C2 C3]]. apply andb_true_iff; split.
    + assert (E : fget f [x] = Some t) by (simpl; rewrite Et; auto).
      rewrite (is_marked_at _ _ s E). apply C1. unfold present; rewrite E; auto.
    + apply forallb_forall. intros [q n] Hq. apply in_traverse in Hq. destruct Hq as [[r [-> Hr]] _].
      cbn [fst snd]. destruct (is_marked n (Some s)) eqn:Em; auto.
      assert (En : fget f ([x] ++ r) = Some n) by (simpl; rewrite Et; auto).
      rewrite (is_marked_at _ _ s En) in Em.
      apply forallb_forall. intros a Ha.
      assert (Pa : present f a = true).
      { apply in_ancestors in Ha. destruct Ha as [Ha [i [r' E]]]. apply (present_parent f i r' Ha).
        rewrite <- E. unfold present. rewrite En; auto. }
      assert (Ma : marked_at f a s = true).
      { exact (@closed_anc A f (fun p => marked_at f p s = true) ([x] ++ r) a a HR Em Ha (or_introl eq_refl) Pa). }
      unfold present in Pa. destruct (fget f a) as [na|] eqn:Ena; [|discriminate].
      rewrite (is_marked_at _ _ s Ena), Ma, andb_true_l. apply forallb_forall.
      intros [c k] Hc. rewrite get_children_none in Hc. apply in_kids_of in Hc.
      destruct Hc as [j [-> Hj]]. cbn [snd].
      assert (Ek : fget f (a ++ [j]) = Some k).
      { rewrite fget_snoc by (eapply anc_nonnil; eauto). rewrite Ena, Hj; auto. }
      rewrite (is_marked_at _ _ s Ek).
      assert (Pk : present f (a ++ [j]) = true) by (unfold present; rewrite Ek; auto).
      exact (@closed_anc A f (fun p => marked_at f p s = true) ([x] ++ r) a (a ++ [j]) HR Em Ha
               (or_intror (ex_intro _ j eq_refl)) Pk).
Qed.

(** ** the tree-level versions *)
Definition parent_closed {A} (f : forest A) (S : path -> Prop) : Prop :=
  forall a i r, a <> [] -> S (a ++ i :: r) -> S a.

Theorem is_rooted_subtree_iff {A} s (t : node A) :
  is_rooted_subtree s t = true <-> parent_closed [t] (fun p => marked_at [t] p s = true).
Proof.
  unfold is_rooted_subtree. rewrite forallb_forall. split.
  - intros H a i r Ha Hm. pose proof (marked_present _ _ _ Hm) as P. unfold present in P.
    destruct a as [|x a]; [tauto|].
    destruct (fget [t] ((x :: a) ++ i :: r)) as [n|] eqn:En; [|discriminate].
    assert (x = 0) as ->.
    { destruct x as [|x]; auto. exfalso. simpl in En. destruct x; discriminate. }
    assert (I2 : In ((0 :: a) ++ i :: r, n) (traverse [0] t None BreadthFirst)).
    { apply in_traverse. split; [|exact Logic.I]. exists (a ++ i :: r); auto. }
    specialize (H _ I2). cbn [fst snd] in H. rewrite (is_marked_at _ _ s En), Hm in H.
    rewrite forallb_forall in H. apply H. apply in_ancestors; split; [discriminate|eauto].
  - intros H [q n] Hq. apply in_traverse in Hq. destruct Hq as [[r [-> Hr]] _]. cbn [fst snd].
    destruct (is_marked n (Some s)) eqn:Em; auto.
    assert (En : fget [t] ([0] ++ r) = Some n) by (simpl; auto).
    rewrite (is_marked_at _ _ s En) in Em. apply forallb_forall. intros a Ha.
    apply in_ancestors in Ha. destruct Ha as [Ha [i [r' E]]]. apply (H a i r'); auto.
    rewrite <- E; auto.
Qed.

(** make_rooted_subtree *)
Definition mrs_step {A} (fl : flag) (f : forest A) (p : path) : forest A :=
  if marked_at f p fl then fold_left (fun f a => fupd a (mark_here fl) f) (ancestors p) f else f.

Lemma fold_mark_same {A} s l (f : forest A) :
  same_but (only_flag s) f (fold_left (fun f a => fupd a (mark_here s) f) l f).
Proof.
  revert f; induction l as [|a l IH]; intro f; simpl; [apply same_but_refl|].
  eapply same_but_trans; [apply same_mark|apply IH].
Qed.
Lemma fold_mark_marked {A} s l (f : forest A) q :
  marked_at (fold_left (fun f a => fupd a (mark_here s) f) l f) q s = true <->
  marked_at f q s = true \/ (present f q = true /\ In q l).
Proof.
  revert f; induction l as [|a l IH]; intro f; simpl; [tauto|].
  rewrite IH, marked_mark, <- (same_but_present q (same_mark a s f)).
  rewrite orb_true_iff, andb_true_iff, peq_true. tauto.
Qed.
Lemma mrs_step_same {A} s (f : forest A) p : same_but (only_flag s) f (mrs_step s f p).
Proof. unfold mrs_step. destruct (marked_at f p s); [apply fold_mark_same|apply same_but_refl]. Qed.
Lemma mrs_step_marked {A} s (f : forest A) p q :
  marked_at (mrs_step s f p) q s = true <->
  marked_at f q s = true \/ (present f q = true /\ marked_at f p s = true /\ In q (ancestors p)).
Proof.
  unfold mrs_step. destruct (marked_at f p s) eqn:E.
  - rewrite fold_mark_marked. tauto.
  - split; auto. intros [H|[_ [H _]]]; auto; discriminate.
Qed.
Lemma mrs_steps_same {A} s l (f : forest A) : same_but (only_flag s) f (fold_left (mrs_step s) l f).
Proof.
  revert f; induction l as [|a l IH]; intro f; simpl; [apply same_but_refl|].
  eapply same_but_trans; [apply mrs_step_same|apply IH].
Qed.
Lemma mrs_steps_mono {A} s l (f : forest A) q :
  marked_at f q s = true -> marked_at (fold_left (mrs_step s) l f) q s = true.
Proof. revert f; induction l as [|a l IH]; intros f H; simpl; auto. apply IH, mrs_step_marked; auto. Qed.
Lemma mrs_steps_iff {A} s l (f : forest A) q :
  marked_at (fold_left (mrs_step s) l f) q s = true ->
  marked_at f q s = true \/ (present f q = true /\ exists p, marked_at f p s = true /\ In q (ancestors p)).
Proof.
  revert f; induction l as [|a l IH]; intros f H; simpl in *; auto.
  apply IH in H. rewrite <- (same_but_present q (mrs_step_same s f a)) in H.
  destruct H as [H|[P [p [H1 H2]]]].
  - apply mrs_step_marked in H. destruct H as [H|[P [H1 H2]]]; auto. right; split; auto. exists a; auto.
  - right; split; auto. apply mrs_step_marked in H1. destruct H1 as [H1|[P1 [H1 H3]]]; [exists p; auto|].
    exists a; split; auto. apply in_ancestors in H2. destruct H2 as [Hq [i [r ->]]].
    apply in_ancestors in H3. destruct H3 as [_ [j [r' ->]]]. apply in_ancestors; split; auto.
    exists i, (r ++ j :: r'). rewrite <- app_assoc; auto.
Qed.
Lemma mrs_steps_complete {A} s l (f : forest A) p q :
  In p l -> marked_at f p s = true -> In q (ancestors p) -> present f q = true ->
  marked_at (fold_left (mrs_step s) l f) q s = true.
Proof.
  revert f; induction l as [|a l IH]; intros f Hin Hp Hq HP; [destruct Hin|]. simpl.
  destruct Hin as [->|Hin].
  - apply mrs_steps_mono, mrs_step_marked; auto.
  - apply IH; auto.
    + apply mrs_step_marked; auto.
    + rewrite <- (same_but_present q (mrs_step_same s f a)); auto.
Qed.

Lemma make_rooted_fold {A} s (t : node A) :
  [make_rooted_subtree s t] =
  fold_left (mrs_step s) (map fst (traverse [0] t None BreadthFirst)) [t].
Proof.
  unfold make_rooted_subtree. fold (@mrs_step A s).
  change (fun (f : forest A) (p : path) => if marked_at f p s
     then fold_left (fun f a => fupd a (mark_here s) f) (ancestors p) f else f) with (@mrs_step A s).
  set (f' := fold_left _ _ _).
  assert (L : length [t] = length f') by (eapply same_but_length; apply mrs_steps_same).
  destruct f' as [|t' [|]]; simpl in L; try discriminate; auto.
Qed.
Theorem make_rooted_same {A} s (t : node A) : same_but (only_flag s) [t] [make_rooted_subtree s t].
Proof. rewrite make_rooted_fold. apply mrs_steps_same. Qed.
Theorem make_rooted_iff {A} s (t : node A) q :
  marked_at [make_rooted_subtree s t] q s = true <->
  q <> [] /\ exists r, marked_at [t] (q ++ r) s = true.
Proof.
  rewrite make_rooted_fold. split.
  - intro H. apply mrs_steps_iff in H. destruct H as [H|[P [p [H1 H2]]]].
    + split; [destruct q; [discriminate|congruence]|]. exists []; rewrite app_nil_r; auto.
    + apply in_ancestors in H2. destruct H2 as [Hq [i [r ->]]]. eauto.
  - intros [Hq [r H]]. destruct r as [|i r].
    + rewrite app_nil_r in H. apply mrs_steps_mono; auto.
    + assert (Pq : present [t] q = true).
      { apply (present_parent [t] i r Hq). eapply marked_present; eauto. }
      eapply mrs_steps_complete with (p := q ++ i :: r); auto.
      * pose proof (marked_present _ _ _ H) as P. unfold present in P.
        destruct (fget [t] (q ++ i :: r)) as [n|] eqn:En; [|discriminate].
        apply in_map_iff. exists (q ++ i :: r, n). split; auto. apply in_traverse.
        split; [|exact Logic.I]. destruct q as [|x q]; [tauto|]. exists (q ++ i :: r).
        destruct x as [|x]; [simpl in En; auto|]. exfalso. simpl in En. destruct x; discriminate.
      * apply in_ancestors; split; auto. eauto.
Qed.

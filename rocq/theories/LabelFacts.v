(** Label updates, rooting. *)
From Coq Require Import List Arith Bool Lia.
Import ListNotations.
From Verif Require Import SpecForest Tree TreeFacts Forest ForestFacts.
Set Implicit Arguments.

Lemma mem_flag_in f l : mem_flag f l = true <-> In f l.
Proof.
  unfold mem_flag. rewrite existsb_exists. split.
  - intros [x [H E]]. apply Nat.eqb_eq in E; subst; auto.
  - intro H; exists f; split; auto. apply Nat.eqb_refl.
Qed.
Lemma mem_add f g l : mem_flag g (add_flag f l) = (g =? f) || mem_flag g l.
Proof.
  unfold add_flag. destruct (mem_flag f l) eqn:E.
  - destruct (Nat.eqb_spec g f) as [->|H]; simpl; auto.
  - simpl. auto.
Qed.
Lemma mem_del f g l : mem_flag g (del_flag f l) = negb (g =? f) && mem_flag g l.
Proof.
  unfold del_flag, mem_flag. induction l as [|x l IH]; simpl; [rewrite andb_false_r; auto|].
  destruct (Nat.eqb_spec f x) as [<-|H]; simpl.
  - rewrite IH. destruct (g =? f); simpl; auto.
  - rewrite IH. destruct (Nat.eqb_spec g x) as [->|H']; simpl; auto.
    destruct (Nat.eqb_spec x f); simpl; auto. congruence.
Qed.


Lemma is_marked_some {A} (n : node A) g : is_marked n (Some g) = has_label g n.
Proof. reflexivity. Qed.


Lemma same_but_refl {A} E (f : forest A) : same_but E f f.
Proof. intro p. destruct (fget f p); auto. Qed.
Lemma same_but_trans {A} E (f g h : forest A) : same_but E f g -> same_but E g h -> same_but E f h.
Proof.
  intros H1 H2 p. specialize (H1 p); specialize (H2 p).
  destruct (fget f p), (fget g p), (fget h p); try tauto.
  destruct H1 as [C1 L1], H2 as [C2 L2]; split; [congruence|].
  intros x Hx. rewrite L1, L2; auto.
Qed.
Lemma same_but_sym {A} E (f g : forest A) : same_but E f g -> same_but E g f.
Proof.
  intros H p. specialize (H p). destruct (fget f p), (fget g p); try tauto.
  destruct H as [C L]; split; [congruence|]. intros; symmetry; auto.
Qed.
Lemma same_but_weaken {A} (E E' : path -> flag -> Prop) (f g : forest A) :
  (forall p x, E p x -> E' p x) -> same_but E f g -> same_but E' f g.
Proof.
  intros HE H p. specialize (H p). destruct (fget f p), (fget g p); try tauto.
  destruct H as [C L]; split; auto.
Qed.
Lemma same_but_exists {A} E (f f' : forest A) p : same_but E f f' ->
  (fget f p <> None <-> fget f' p <> None).
Proof. intro H. specialize (H p). destruct (fget f p), (fget f' p); split; congruence || tauto. Qed.
Lemma same_but_length {A} E (f f' : forest A) : same_but E f f' -> length f = length f'.
Proof.
  intro H. assert (G : forall i, i < length f <-> i < length f').
  { intro i. specialize (H [i]). simpl in H.
    rewrite <- !nth_error_Some.
    destruct (nth_error f i), (nth_error f' i); simpl in H; split; congruence || tauto. }
  destruct (lt_eq_lt_dec (length f) (length f')) as [[L|L]|L]; auto.
  - apply G in L; lia.
  - apply G in L; lia.
Qed.
Lemma same_but_marked {A} E (f f' : forest A) p g : same_but E f f' -> ~ E p g ->
  marked_at f p g = marked_at f' p g.
Proof.
  intros H HE. specialize (H p). unfold marked_at.
  destruct (fget f p), (fget f' p); try tauto. destruct H as [_ H]. rewrite !is_marked_some; auto.
Qed.

(** A pointwise relabelling: [lab p] transforms the labels of the object at [p] *)
Definition relabelled {A} (f f' : forest A) (lab : path -> list flag -> list flag) : Prop :=
  forall p, match fget f p, fget f' p with
            | Some n, Some n' => core n = core n' /\ labels n' = lab p (labels n)
            | None, None => True
            | _, _ => False
            end.

Lemma core_mark_here {A} s (n : node A) : core (mark_here s n) = core n.
Proof. destruct n; auto. Qed.
Lemma core_unmark_here {A} s (n : node A) : core (unmark_here s n) = core n.
Proof. destruct n; destruct s; auto. Qed.
Lemma labels_mark_here {A} s (n : node A) : labels (mark_here s n) = add_flag s (labels n).
Proof. destruct n; auto. Qed.
Lemma slots_mark_here {A} s (n : node A) : n_slots (mark_here s n) = n_slots n.
Proof. destruct n; auto. Qed.
Lemma slots_unmark_here {A} s (n : node A) : n_slots (unmark_here s n) = n_slots n.
Proof. destruct n, s; auto. Qed.

Lemma obs_core {A} (n n' : node A) : obs n = obs n' -> core n = core n' /\ labels n = labels n'.
Proof. unfold obs, core, labels. intro H. injection H as E1 E2 E3. rewrite E1, E2, E3; auto. Qed.

Lemma fobs_inv {A} (f f' : forest A) p : fobs f' p = fobs f p ->
  match fget f p, fget f' p with
  | Some n, Some n' => core n = core n' /\ labels n' = labels n
  | None, None => True
  | _, _ => False
  end.
Proof.
  unfold fobs. destruct (fget f p), (fget f' p); simpl; intro H; try discriminate; auto.
  match type of H with Some ?x = Some ?y => assert (E : x = y) by congruence end.
  apply obs_core in E. intuition congruence.
Qed.

(** update of one object, keeping its slots *)
Lemma fupd_label {A} p (g : node A -> node A) (f : forest A) q :
  keeps_slots g ->
  fobs (fupd p g f) q = if list_eq_dec Nat.eq_dec p q then option_map obs (option_map g (fget f p))
                        else fobs f q.
Proof.
  intro Hg. destruct (list_eq_dec Nat.eq_dec p q) as [->|Hpq].
  - unfold fobs; rewrite fget_fupd_same; auto.
  - destruct (prefix_dec p q) as [[r ->]|H1].
    + destruct p as [|j p]; [reflexivity|].
      unfold fobs. rewrite fget_fupd_below by discriminate. rewrite fget_app.
      destruct (fget f (j :: p)) as [k|]; auto.
      destruct r as [|i r]; [rewrite app_nil_r in Hpq; congruence|].
      simpl. rewrite Hg; auto.
    + destruct (prefix_dec q p) as [[r ->]|H2].
      * destruct r as [|i r]; [rewrite app_nil_r in Hpq; congruence|].
        apply fobs_fupd_above.
      * unfold fobs; rewrite fget_fupd_off; auto.
Qed.

Lemma keeps_mark {A} s : keeps_slots (@mark_here A s).
Proof. intro n; apply slots_mark_here. Qed.
Lemma keeps_unmark {A} s : keeps_slots (@unmark_here A s).
Proof. intro n; apply slots_unmark_here. Qed.

Definition peq (p q : path) : bool := if list_eq_dec Nat.eq_dec p q then true else false.
Lemma peq_true p q : peq p q = true <-> p = q.
Proof. unfold peq. destruct (list_eq_dec Nat.eq_dec p q); split; congruence. Qed.

Lemma relabelled_mark {A} p s (f : forest A) :
  relabelled f (fupd p (mark_here s) f) (fun q l => if peq p q then add_flag s l else l).
Proof.
  intro q. pose proof (fupd_label p f q (@keeps_mark A s)) as H. unfold peq.
  destruct (list_eq_dec Nat.eq_dec p q) as [->|Hpq].
  - rewrite fget_fupd_same. destruct (fget f q); simpl; auto.
    rewrite core_mark_here, labels_mark_here; auto.
  - apply fobs_inv in H. destruct (fget f q), (fget (fupd p (mark_here s) f) q); auto.
Qed.
Lemma relabelled_unmark {A} p s (f : forest A) :
  relabelled f (fupd p (unmark_here s) f)
    (fun q l => if peq p q then match s with None => [] | Some g => del_flag g l end else l).
Proof.
  intro q. pose proof (fupd_label p f q (@keeps_unmark A s)) as H. unfold peq.
  destruct (list_eq_dec Nat.eq_dec p q) as [->|Hpq].
  - rewrite fget_fupd_same. destruct (fget f q) as [n|]; simpl; auto.
    rewrite core_unmark_here. destruct n, s; auto.
  - apply fobs_inv in H. destruct (fget f q), (fget (fupd p (unmark_here s) f) q); auto.
Qed.

(** ** marking an object and its children *)
Definition is_child (a q : path) : bool :=
  match q with [] => false | _ => peq (removelast q) a && negb (peq q []) end.
Lemma is_child_spec a q : is_child a q = true <-> exists i, q = a ++ [i].
Proof.
  unfold is_child. destruct q as [|x q]; [split; [discriminate|intros [i E]; destruct a; discriminate]|].
  rewrite andb_true_iff, negb_true_iff. split.
  - intros [H _]. apply peq_true in H. exists (last (x :: q) 0). rewrite <- H.
    apply app_removelast_last. discriminate.
  - intros [i E]. rewrite E. rewrite removelast_last. split.
    + apply peq_true; auto.
    + destruct (peq (a ++ [i]) []) eqn:E'; auto. apply peq_true in E'. destruct a; discriminate.
Qed.

Lemma nget_map_kids {A} (h : node A -> node A) n i r :
  nget (map_kids h n) (i :: r) =
  match nth_error (n_slots n) i with Some (Some k) => nget (h k) r | _ => None end.
Proof.
  destruct n as [m d ks]. simpl. rewrite nth_error_map.
  destruct (nth_error ks i) as [[k|]|]; auto.
Qed.
Lemma slot_shape_map_kids {A} (h : node A -> node A) n :
  slot_shape (n_slots (map_kids h n)) = slot_shape (n_slots n).
Proof.
  destruct n as [m d ks]. simpl. unfold slot_shape. rewrite map_map. apply map_ext.
  intros [k|]; auto.
Qed.
Lemma core_map_kids {A} (h : node A -> node A) n : core (map_kids h n) = core n.
Proof.
  pose proof (slot_shape_map_kids h n) as H. destruct n as [m d ks].
  unfold core. simpl in *. rewrite H; auto.
Qed.
Lemma labels_map_kids {A} (h : node A -> node A) n : labels (map_kids h n) = labels n.
Proof. destruct n; auto. Qed.

(** a change of one object [a] that relabels it by [la] and its children by [lk] *)
Lemma relabelled_kids {A} a (g : node A -> node A) (la lk : list flag -> list flag) (f : forest A) :
  a <> [] ->
  (forall n, core (g n) = core n /\ labels (g n) = la (labels n)) ->
  (forall n i r, nget (g n) (i :: r) =
     match nth_error (n_slots n) i with
     | Some (Some k) => option_map (fun c => c) (match r with [] => nget (g n) [i] | _ => nget k r end)
     | _ => None end) ->
  (forall n i k, nth_error (n_slots n) i = Some (Some k) ->
     exists k', nget (g n) [i] = Some k' /\ core k' = core k /\ labels k' = lk (labels k)) ->
  relabelled f (fupd a g f)
    (fun q l => if peq a q then la l else if is_child a q then lk l else l).
Proof.
  intros Ha Hg1 Hg2 Hg3 q.
  destruct (peq a q) eqn:Eq.
  - apply peq_true in Eq; subst q. rewrite fget_fupd_same. destruct (fget f a) as [n|]; simpl; auto.
    destruct (Hg1 n); split; congruence.
  - destruct (is_child a q) eqn:Ec.
    + apply is_child_spec in Ec. destruct Ec as [i ->].
      rewrite fget_snoc, fget_fupd_below by auto.
      destruct (fget f a) as [n|]; auto.
      destruct (nth_error (n_slots n) i) as [[k|]|] eqn:E.
      * destruct (Hg3 n i k E) as [k' [E1 [E2 E3]]]. rewrite E1. auto.
      * rewrite Hg2, E; auto.
      * rewrite Hg2, E; auto.
    + destruct (prefix_dec a q) as [[r ->]|H1].
      * destruct r as [|i [|j r]].
        -- rewrite app_nil_r in Eq. assert (peq a a = true) by (apply peq_true; auto). congruence.
        -- assert (is_child a (a ++ [i]) = true) by (apply is_child_spec; eauto). congruence.
        -- rewrite fget_fupd_below by auto. destruct a as [|x a]; [tauto|].
           rewrite fget_app. destruct (fget f (x :: a)) as [n|]; auto.
           rewrite Hg2. change (nget n (i :: j :: r)) with
             (match nth_error (n_slots n) i with Some (Some k) => nget k (j :: r) | _ => None end).
           destruct (nth_error (n_slots n) i) as [[k|]|]; auto.
           destruct (nget k (j :: r)); simpl; auto.
      * destruct (prefix_dec q a) as [[r ->]|H2].
        -- destruct r as [|i r]; [rewrite app_nil_r in Eq;
             assert (peq q q = true) by (apply peq_true; auto); congruence|].
           pose proof (fobs_fupd_above q i r g f) as H. apply fobs_inv in H.
           destruct (fget f q), (fget (fupd (q ++ i :: r) g f) q); auto.
        -- rewrite fget_fupd_off; auto. destruct (fget f q); auto.
Qed.

Lemma relabelled_msk {A} a s (f : forest A) : a <> [] ->
  relabelled f (fupd a (mark_self_and_kids s) f)
    (fun q l => if peq a q then add_flag s l else if is_child a q then add_flag s l else l).
Proof.
  intro Ha. apply relabelled_kids; auto; unfold mark_self_and_kids.
  - intro n. rewrite core_map_kids, labels_map_kids, core_mark_here, labels_mark_here; auto.
  - intros n i r. rewrite !nget_map_kids, slots_mark_here.
    destruct (nth_error (n_slots n) i) as [[k|]|]; auto.
    destruct r as [|j r]; simpl; auto. rewrite slots_mark_here.
    destruct (nth_error (n_slots k) j) as [[c|]|]; auto. destruct (nget c r); auto.
  - intros n i k E. rewrite nget_map_kids, slots_mark_here, E. simpl.
    exists (mark_here s k). rewrite core_mark_here, labels_mark_here; auto.
Qed.
Lemma relabelled_compose {A} (f g h : forest A) l1 l2 :
  relabelled f g l1 -> relabelled g h l2 -> relabelled f h (fun p l => l2 p (l1 p l)).
Proof.
  intros H1 H2 p. specialize (H1 p); specialize (H2 p).
  destruct (fget f p), (fget g p), (fget h p); try tauto.
  destruct H1 as [C1 L1], H2 as [C2 L2]; split; [congruence|]. rewrite L2, L1; auto.
Qed.
Lemma relabelled_same {A} (f f' : forest A) l E :
  relabelled f f' l -> (forall p x g, ~ E p g -> mem_flag g (l p x) = mem_flag g x) -> same_but E f f'.
Proof.
  intros H HE p. specialize (H p). destruct (fget f p), (fget f' p); try tauto.
  destruct H as [C L]; split; auto. intros g Hg. unfold has_label. rewrite L, HE; auto.
Qed.
Lemma relabelled_marked {A} (f f' : forest A) l p g :
  relabelled f f' l ->
  marked_at f' p g = match fget f p with Some n => mem_flag g (l p (labels n)) | None => false end.
Proof.
  intro H. specialize (H p). unfold marked_at. destruct (fget f p), (fget f' p); try tauto; auto.
  destruct H as [_ L]. rewrite is_marked_some. unfold has_label. rewrite L; auto.
Qed.

Lemma marked_present {A} (f : forest A) p s : marked_at f p s = true -> present f p = true.
Proof. unfold marked_at, present. destruct (fget f p); auto. Qed.
Lemma same_but_present {A} E (f f' : forest A) p : same_but E f f' -> present f p = present f' p.
Proof. intro H. specialize (H p). unfold present. destruct (fget f p), (fget f' p); tauto. Qed.

(** effect of the elementary updates on the marking of [s] *)
Lemma marked_mark {A} p s (f : forest A) q :
  marked_at (fupd p (mark_here s) f) q s = marked_at f q s || (peq p q && present f q).
Proof.
  rewrite (relabelled_marked q s (relabelled_mark p s f)). unfold marked_at, present.
  destruct (fget f q) as [n|]; [|rewrite andb_false_r; auto]. rewrite is_marked_some, andb_true_r.
  unfold has_label. destruct (peq p q).
  - rewrite mem_add, Nat.eqb_refl. simpl. rewrite orb_true_r; auto.
  - rewrite orb_false_r; auto.
Qed.
Lemma marked_msk {A} a s (f : forest A) q : a <> [] ->
  marked_at (fupd a (mark_self_and_kids s) f) q s =
  marked_at f q s || ((peq a q || is_child a q) && present f q).
Proof.
  intro Ha. rewrite (relabelled_marked q s (relabelled_msk s f Ha)). unfold marked_at, present.
  destruct (fget f q) as [n|]; [|rewrite andb_false_r; auto]. rewrite is_marked_some, andb_true_r.
  unfold has_label. destruct (peq a q); simpl.
  - rewrite mem_add, Nat.eqb_refl. simpl. rewrite orb_true_r; auto.
  - destruct (is_child a q).
    + rewrite mem_add, Nat.eqb_refl. simpl. rewrite orb_true_r; auto.
    + rewrite orb_false_r; auto.
Qed.
Lemma same_mark {A} p s (f : forest A) : same_but (only_flag s) f (fupd p (mark_here s) f).
Proof.
  eapply relabelled_same; [apply relabelled_mark|]. intros q x g Hg. unfold only_flag in Hg.
  simpl. destruct (peq p q); auto. rewrite mem_add. destruct (Nat.eqb_spec g s); [tauto|auto].
Qed.
Lemma same_msk {A} a s (f : forest A) : a <> [] ->
  same_but (only_flag s) f (fupd a (mark_self_and_kids s) f).
Proof.
  intro Ha. eapply relabelled_same; [apply relabelled_msk; auto|]. intros q x g Hg. unfold only_flag in Hg.
  simpl. destruct (peq a q), (is_child a q); auto; rewrite mem_add; destruct (Nat.eqb_spec g s); tauto || auto.
Qed.

(** ** ancestors *)
Lemma anc_up_spec n p a : length p <= n ->
  (In a (anc_up n p) <-> a <> [] /\ exists i r, p = a ++ i :: r).
Proof.
  revert p; induction n as [|n IH]; intros p L.
  - destruct p; simpl in *; [|lia]. split; [tauto|]. intros [_ [i [r E]]]. destruct a; discriminate.
  - cbn [anc_up]. cbv zeta. destruct (list_eq_dec Nat.eq_dec p []) as [->|Hp].
    + simpl. split; [tauto|]. intros [_ [i [r E]]]. destruct a; discriminate.
    + pose proof (app_removelast_last 0 Hp) as E. revert E.
      generalize (removelast p) (last p 0). intros b x E.
      destruct (list_eq_dec Nat.eq_dec b []) as [Eb|Eb].
      * subst b. split; [simpl; tauto|]. intros [Ha [i [r E']]]. rewrite E in E'.
        destruct a as [|z a]; [tauto|]. simpl in E'. injection E' as _ E'. destruct a; discriminate.
      * assert (Lb : length b <= n).
        { rewrite E in L. rewrite app_length in L; simpl in L; lia. }
        match goal with |- In a ?X <-> _ =>
          assert (EX : X = b :: anc_up n b) by (destruct b; [congruence|reflexivity]); rewrite EX end.
        assert (Hcons : In a (b :: anc_up n b) <-> a = b \/ In a (anc_up n b)).
        { simpl; split; intros [H|H]; auto. }
        rewrite Hcons, (IH b Lb). split.
        -- intros [->|[Ha [i [r Er]]]].
           ++ split; [congruence|]. exists x, []; auto.
           ++ split; auto. exists i, (r ++ [x]). rewrite E, Er, <- app_assoc; auto.
        -- intros [Ha [i [r Er]]]. destruct r as [|j r] using rev_ind.
           ++ left. rewrite E in Er. apply app_inj_tail in Er. symmetry; tauto.
           ++ right; split; auto. exists i, r. rewrite E in Er.
              rewrite app_comm_cons, app_assoc in Er. apply app_inj_tail in Er. tauto.
Qed.
Lemma in_ancestors p a : In a (ancestors p) <-> a <> [] /\ exists i r, p = a ++ i :: r.
Proof. apply anc_up_spec; auto. Qed.

(** ** root_subtrees *)
Lemma fold_msk_same {A} s (l : list path) (f : forest A) :
  (forall a, In a l -> a <> []) ->
  same_but (only_flag s) f (fold_left (fun f a => fupd a (mark_self_and_kids s) f) l f).
Proof.
  revert f; induction l as [|a l IH]; intros f H; simpl; [apply same_but_refl|].
  eapply same_but_trans; [apply same_msk|apply IH].
  - apply H; left; auto.
  - intros; apply H; right; auto.
Qed.
Lemma fold_msk_marked {A} s (l : list path) (f : forest A) q :
  (forall a, In a l -> a <> []) ->
  marked_at (fold_left (fun f a => fupd a (mark_self_and_kids s) f) l f) q s = true <->
  marked_at f q s = true \/
  (present f q = true /\ exists a, In a l /\ (q = a \/ exists i, q = a ++ [i])).
Proof.
  revert f; induction l as [|a l IH]; intros f H; simpl.
  - split; auto. intros [?|[_ [a [[] _]]]]; auto.
  - rewrite IH by (intros; apply H; right; auto).
    rewrite marked_msk by (apply H; left; auto).
    rewrite <- (same_but_present q (same_msk s f (H a (or_introl eq_refl)))).
    rewrite orb_true_iff, andb_true_iff, orb_true_iff, peq_true, is_child_spec. split.
    + intros [[E|[[->|E] P]]|[P [b [Hb E]]]]; auto.
      * right; split; auto. exists q; auto.
      * right; split; auto. exists a; auto.
      * right; split; auto. exists b; auto.
    + intros [E|[P [b [[<-|Hb] E]]]]; auto.
      * left; right; split; auto. destruct E as [->|E]; auto.
      * right; split; auto. exists b; auto.
Qed.

Lemma anc_nonnil p a : In a (ancestors p) -> a <> [].
Proof. intro H. apply in_ancestors in H; tauto. Qed.

Lemma root_step_same {A} s (f : forest A) p : same_but (only_flag s) f (root_step s f p).
Proof.
  unfold root_step. destruct (marked_at f p s); [|apply same_but_refl].
  apply fold_msk_same. intros a; apply anc_nonnil.
Qed.
Lemma root_step_marked {A} s (f : forest A) p q :
  marked_at (root_step s f p) q s = true <->
  marked_at f q s = true \/
  (present f q = true /\ marked_at f p s = true /\
   exists a, In a (ancestors p) /\ (q = a \/ exists i, q = a ++ [i])).
Proof.
  unfold root_step. destruct (marked_at f p s) eqn:E.
  - rewrite fold_msk_marked by (intros a; apply anc_nonnil). split.
    + intros [H|[P H]]; auto.
    + intros [H|[P [_ H]]]; auto.
  - split; auto. intros [H|[_ [H _]]]; auto; discriminate.
Qed.

Lemma root_steps_same {A} s l (f : forest A) : same_but (only_flag s) f (fold_left (root_step s) l f).
Proof.
  revert f; induction l as [|p l IH]; intro f; simpl; [apply same_but_refl|].
  eapply same_but_trans; [apply root_step_same|apply IH].
Qed.
Lemma root_steps_mono {A} s l (f : forest A) q :
  marked_at f q s = true -> marked_at (fold_left (root_step s) l f) q s = true.
Proof.
  revert f; induction l as [|p l IH]; intros f H; simpl; auto.
  apply IH, root_step_marked; auto.
Qed.
Lemma root_steps_complete {A} s l (f : forest A) p q a :
  In p l -> marked_at f p s = true -> In a (ancestors p) -> (q = a \/ exists i, q = a ++ [i]) ->
  present f q = true -> marked_at (fold_left (root_step s) l f) q s = true.
Proof.
  revert f; induction l as [|x l IH]; intros f Hin Hp Ha Hq HP; [destruct Hin|]. simpl.
  destruct Hin as [->|Hin].
  - apply root_steps_mono, root_step_marked. right; split; auto. split; auto. exists a; auto.
  - apply IH; auto.
    + apply root_step_marked; auto.
    + rewrite <- (same_but_present q (root_step_same s f x)); auto.
Qed.


Lemma closed_anc {A} (f : forest A) S p a q : closed_set f S -> S p -> In a (ancestors p) ->
  (q = a \/ exists i, q = a ++ [i]) -> present f q = true -> S q.
Proof.
  intros [C1 [C2 C3]] Hp Ha Hq HP. apply in_ancestors in Ha. destruct Ha as [Ha [i [r ->]]].
  assert (Sa : S a) by (eapply C2; eauto).
  destruct Hq as [->|[j ->]]; auto.
  apply (C3 a i j); auto. destruct r as [|k r]; auto.
  apply (C2 (a ++ [i]) k r).
  - destruct a; discriminate.
  - rewrite <- app_assoc; auto.
Qed.

Lemma root_steps_sound {A} s l (f f0 : forest A) S q :
  closed_set f0 S -> (forall p, present f p = present f0 p) ->
  (forall p, marked_at f p s = true -> S p) ->
  marked_at (fold_left (root_step s) l f) q s = true -> S q.
Proof.
  intros HC. revert f; induction l as [|p l IH]; intros f HP H Hq; simpl in *; auto.
  eapply IH; [| |exact Hq].
  - intro x. rewrite <- HP. symmetry. apply (same_but_present x (root_step_same s f p)).
  - intros x Hx. apply root_step_marked in Hx. destruct Hx as [Hx|[P [Hp [a [Ha E]]]]]; auto.
    eapply closed_anc; [exact HC|apply H; exact Hp|exact Ha|exact E|rewrite <- HP; exact P].
Qed.

Lemma root_one_same {A} s (f : forest A) i : same_but (only_flag s) f (root_one s f i).
Proof.
  unfold root_one. destruct (nth_error (fupd [i] (mark_here s) f) i).
  - eapply same_but_trans; [apply same_mark|apply root_steps_same].
  - apply same_mark.
Qed.
Lemma root_one_mono {A} s (f : forest A) i q :
  marked_at f q s = true -> marked_at (root_one s f i) q s = true.
Proof.
  intro H. unfold root_one.
  assert (H1 : marked_at (fupd [i] (mark_here s) f) q s = true) by (rewrite marked_mark, H; auto).
  destruct (nth_error (fupd [i] (mark_here s) f) i); auto. apply root_steps_mono; auto.
Qed.
Lemma root_one_root {A} s (f : forest A) i :
  present f [i] = true -> marked_at (root_one s f i) [i] s = true.
Proof.
  intro H. unfold root_one.
  assert (H1 : marked_at (fupd [i] (mark_here s) f) [i] s = true).
  { rewrite marked_mark, H. assert (peq [i] [i] = true) by (apply peq_true; auto).
    rewrite H0; simpl. apply orb_true_r. }
  destruct (nth_error (fupd [i] (mark_here s) f) i); auto. apply root_steps_mono; auto.
Qed.
Lemma root_one_complete {A} s (f : forest A) i r q a :
  marked_at f (i :: r) s = true -> In a (ancestors (i :: r)) -> (q = a \/ exists j, q = a ++ [j]) ->
  present f q = true -> marked_at (root_one s f i) q s = true.
Proof.
  intros H Ha Hq HP. unfold root_one. set (f1 := fupd [i] (mark_here s) f).
  assert (H1 : marked_at f1 (i :: r) s = true) by (unfold f1; rewrite marked_mark, H; auto).
  pose proof (marked_present _ _ _ H1) as P1. unfold present in P1. simpl in P1.
  destruct (nth_error f1 i) as [t|] eqn:E; [|discriminate].
  eapply root_steps_complete; eauto.
  - apply in_map_iff. destruct (nget t r) as [n|] eqn:Er; [|discriminate].
    exists (i :: r, n). split; auto. apply in_traverse. split; [exists r; auto|exact I].
  - unfold f1. rewrite <- (same_but_present q (same_mark [i] s f)); auto.
Qed.
Lemma root_one_sound {A} s (f f0 : forest A) i S q :
  closed_set f0 S -> (forall p, present f p = present f0 p) ->
  (forall p, marked_at f p s = true -> S p) ->
  marked_at (root_one s f i) q s = true -> S q.
Proof.
  intros HC HP H. unfold root_one. set (f1 := fupd [i] (mark_here s) f).
  assert (H1 : forall p, marked_at f1 p s = true -> S p).
  { intros p Hp. unfold f1 in Hp. rewrite marked_mark, orb_true_iff, andb_true_iff, peq_true in Hp.
    destruct Hp as [Hp|[<- Hp]]; auto. destruct HC as [C _]. apply C. rewrite <- HP; auto. }
  destruct (nth_error f1 i); auto.
  eapply root_steps_sound; eauto. intro p. unfold f1. rewrite <- HP. symmetry.
  apply (same_but_present p (same_mark [i] s f)).
Qed.

Lemma roots_fold_same {A} s l (f : forest A) : same_but (only_flag s) f (fold_left (root_one s) l f).
Proof.
  revert f; induction l as [|p l IH]; intro f; simpl; [apply same_but_refl|].
  eapply same_but_trans; [apply root_one_same|apply IH].
Qed.
Lemma roots_fold_mono {A} s l (f : forest A) q :
  marked_at f q s = true -> marked_at (fold_left (root_one s) l f) q s = true.
Proof. revert f; induction l as [|p l IH]; intros f H; simpl; auto. apply IH, root_one_mono; auto. Qed.

Theorem root_subtrees_same {A} s (f : forest A) : same_but (only_flag s) f (root_subtrees s f).
Proof. apply roots_fold_same. Qed.
Theorem root_subtrees_mono {A} s (f : forest A) q :
  marked_at f q s = true -> marked_at (root_subtrees s f) q s = true.
Proof. apply roots_fold_mono. Qed.
Theorem root_subtrees_root {A} s (f : forest A) i :
  present f [i] = true -> marked_at (root_subtrees s f) [i] s = true.
Proof.
  intro H. unfold root_subtrees. assert (Hi : In i (seq 0 (length f))).
  { apply in_seq. unfold present in H; simpl in H. split; [lia|]. simpl. apply nth_error_Some.
    destruct (nth_error f i); congruence. }
  revert Hi. generalize (seq 0 (length f)). intro l. revert f H.
  induction l as [|x l IH]; intros f H Hin; [destruct Hin|]. simpl. destruct Hin as [->|Hin].
  - apply roots_fold_mono, root_one_root; auto.
  - apply IH; auto. rewrite <- (same_but_present [i] (root_one_same s f x)); auto.
Qed.
Theorem root_subtrees_complete {A} s (f : forest A) p q a :
  marked_at f p s = true -> In a (ancestors p) -> (q = a \/ exists j, q = a ++ [j]) ->
  present f q = true -> marked_at (root_subtrees s f) q s = true.
Proof.
  intros H Ha Hq HP. destruct p as [|i r]; [discriminate|].
  unfold root_subtrees. assert (Hi : In i (seq 0 (length f))).
  { apply in_seq. pose proof (marked_present _ _ _ H) as P. unfold present in P; simpl in P. split; [lia|].
    simpl. apply nth_error_Some. destruct (nth_error f i); congruence. }
  revert Hi. generalize (seq 0 (length f)). intro l. revert f H HP.
  induction l as [|x l IH]; intros f H HP Hin; [destruct Hin|]. simpl. destruct Hin as [->|Hin].
  - apply roots_fold_mono. eapply root_one_complete; eauto.
  - apply IH; auto.
    + apply root_one_mono; auto.
    + rewrite <- (same_but_present q (root_one_same s f x)); auto.
Qed.
Theorem root_subtrees_least {A} s (f : forest A) S q :
  closed_set f S -> (forall p, marked_at f p s = true -> S p) ->
  marked_at (root_subtrees s f) q s = true -> S q.
Proof.
  intros HC. unfold root_subtrees. generalize (seq 0 (length f)). intro l.
  assert (G : forall g : forest A, (forall p, present g p = present f p) ->
     (forall p, marked_at g p s = true -> S p) ->
     marked_at (fold_left (root_one s) l g) q s = true -> S q).
  { induction l as [|x l IH]; intros g HP Hg; simpl; auto. intro Hq. eapply IH; [| |exact Hq].
    - intro y. rewrite <- HP. symmetry. apply (same_but_present y (root_one_same s g x)).
    - intros y Hy. eapply root_one_sound; eauto. }
  apply G; auto.
Qed.

(** closed form *)
Theorem root_subtrees_iff {A} s (f : forest A) q :
  marked_at (root_subtrees s f) q s = true <->
  present f q = true /\
  ((exists i, q = [i]) \/ marked_at f q s = true \/
   exists p a, marked_at f p s = true /\ In a (ancestors p) /\ (q = a \/ exists i, q = a ++ [i])).
Proof.
  split.
  - intro H. split.
    + rewrite (same_but_present q (root_subtrees_same s f)). eapply marked_present; eauto.
    + revert H. apply (@root_subtrees_least A s f (fun q => (exists i, q = [i]) \/ marked_at f q s = true \/
       exists p a, marked_at f p s = true /\ In a (ancestors p) /\ (q = a \/ exists i, q = a ++ [i]))); auto.
      split; [|split].
      * intros i _; left; eauto.
      * intros a i r Ha H. destruct H as [[j E]|[H|[p [b [H1 [H2 H3]]]]]].
        -- destruct a as [|x a]; [tauto|]. injection E as _ E. destruct a; discriminate.
        -- right; right. exists (a ++ i :: r), a. split; auto. split; auto.
           apply in_ancestors. split; auto. eauto.
        -- right; right. exists p, a. split; auto. split; auto. apply in_ancestors.
           apply in_ancestors in H2. destruct H2 as [Hb [j [t ->]]]. split; auto.
           destruct H3 as [<-|[k Ek]].
           ++ exists i, (r ++ j :: t). rewrite <- app_assoc; auto.
           ++ destruct r as [|y r] using rev_ind.
              ** apply app_inj_tail in Ek. destruct Ek as [-> _]. eauto.
              ** rewrite app_comm_cons, app_assoc in Ek. apply app_inj_tail in Ek.
                 destruct Ek as [<- _]. exists i, (r ++ j :: t). rewrite <- app_assoc; auto.
      * intros a i j Ha H HP. destruct H as [[k E]|[H|[p [b [H1 [H2 H3]]]]]].
        -- destruct a as [|x a]; [tauto|]. injection E as _ E. destruct a; discriminate.
        -- right; right. exists (a ++ [i]), a. split; auto. split; [|eauto].
           apply in_ancestors; split; auto. exists i, []; auto.
        -- right; right. exists p, a. split; auto. split; [|eauto].
           apply in_ancestors in H2. destruct H2 as [Hb [k [t ->]]].
           apply in_ancestors; split; auto. destruct H3 as [<-|[l El]].
           ++ exists i, (k :: t). rewrite <- app_assoc; auto.
           ++ apply app_inj_tail in El. destruct El as [-> _]. eauto.
  - intros [HP [[i ->]|[H|[p [a [H1 [H2 H3]]]]]]].
    + apply root_subtrees_root; auto.
    + apply root_subtrees_mono; auto.
    + eapply root_subtrees_complete; eauto.
Qed.


Lemma present_parent {A} (f : forest A) a i r : a <> [] -> present f (a ++ i :: r) = true -> present f a = true.
Proof.
  destruct a as [|x a]; [tauto|]. intros _. unfold present. rewrite fget_app.
  destruct (fget f (x :: a)); auto.
Qed.

Theorem root_subtrees_rooted {A} s (f : forest A) : rooted (root_subtrees s f) s.
Proof.
  assert (HP : forall q, present (root_subtrees s f) q = present f q).
  { intro q. symmetry. apply (same_but_present q (root_subtrees_same s f)). }
  split; [|split].
  - intros i Hi. apply root_subtrees_root. rewrite <- HP; auto.
  - intros a i r Ha H.
    assert (Pa : present f a = true).
    { apply (present_parent f i r Ha). rewrite <- HP. eapply marked_present; eauto. }
    apply root_subtrees_iff in H. destruct H as [Pq H].
    apply root_subtrees_iff. split; auto.
    destruct H as [[j E]|[H|[p [b [H1 [H2 H3]]]]]].
    + destruct a as [|x a]; [tauto|]. injection E as _ E. destruct a; discriminate.
    + right; right. exists (a ++ i :: r), a. split; auto. split; auto.
      apply in_ancestors. split; auto. eauto.
    + right; right. exists p, a. split; auto. split; auto. apply in_ancestors.
      apply in_ancestors in H2. destruct H2 as [Hb [j [t ->]]]. split; auto.
      destruct H3 as [<-|[k Ek]].
      * exists i, (r ++ j :: t). rewrite <- app_assoc; auto.
      * destruct r as [|y r] using rev_ind.
        -- apply app_inj_tail in Ek. destruct Ek as [-> _]. eauto.
        -- rewrite app_comm_cons, app_assoc in Ek. apply app_inj_tail in Ek.
           destruct Ek as [<- _]. exists i, (r ++ j :: t). rewrite <- app_assoc; auto.
  - intros a i j Ha H Pj. rewrite HP in Pj. apply root_subtrees_iff in H. destruct H as [Pq H].
    apply root_subtrees_iff. split; auto.
    destruct H as [[k E]|[H|[p [b [H1 [H2 H3]]]]]].
    + destruct a as [|x a]; [tauto|]. injection E as _ E. destruct a; discriminate.
    + right; right. exists (a ++ [i]), a. split; auto. split; [|eauto].
      apply in_ancestors; split; auto. exists i, []; auto.
    + right; right. exists p, a. split; auto. split; [|eauto].
      apply in_ancestors in H2. destruct H2 as [Hb [k [t ->]]].
      apply in_ancestors; split; auto. destruct H3 as [<-|[l El]].
      * exists i, (k :: t). rewrite <- app_assoc; auto.
      * apply app_inj_tail in El. destruct El as [-> _]. eauto.
Qed.

(** rooting a rooted submesh does not change any marking *)
Theorem root_subtrees_idem {A} s (f : forest A) q :
  rooted f s -> marked_at (root_subtrees s f) q s = marked_at f q s.
Proof.
  intro H. destruct (marked_at f q s) eqn:E.
  - apply root_subtrees_mono; auto.
  - destruct (marked_at (root_subtrees s f) q s) eqn:E'; auto.
    apply (@root_subtrees_least A s f (fun p => marked_at f p s = true)) in E'; auto. congruence.
Qed.

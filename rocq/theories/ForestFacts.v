(** Proofs about the Forest model: paths, order of traversal, label updates. *)
From Coq Require Import List Arith Bool Lia Sorted.
Import ListNotations.
From Verif Require Import SpecForest Tree TreeFacts Forest.
Set Implicit Arguments.

(** strictly to the left: differ at a common position *)
Fixpoint leftof (p q : path) : Prop :=
  match p, q with
  | i :: p', j :: q' => i < j \/ (i = j /\ leftof p' q')
  | _, _ => False
  end.

Lemma lexlt_irrefl p : ~ lexlt p p.
Proof. induction p as [|i p IH]; simpl; [tauto|]. intros [H|[_ H]]; [lia|auto]. Qed.
Lemma levlt_irrefl p : ~ levlt p p.
Proof. intros [H|[_ H]]; [lia|apply (lexlt_irrefl _ H)]. Qed.
Lemma leftof_app p q r s : leftof p q -> leftof (p ++ r) (q ++ s).
Proof.
  revert q; induction p as [|i p IH]; intros [|j q]; simpl; try tauto.
  intros [H|[-> H]]; [left; auto|right; split; auto].
Qed.
Lemma leftof_lexlt p q : leftof p q -> lexlt p q.
Proof.
  revert q; induction p as [|i p IH]; intros [|j q]; simpl; try tauto.
  intros [H|[-> H]]; [left; auto|right; split; auto].
Qed.
Lemma leftof_snoc p i j : i < j -> leftof (p ++ [i]) (p ++ [j]).
Proof. intro H; induction p; simpl; auto. Qed.
Lemma lexlt_ext p i r : lexlt p (p ++ i :: r).
Proof. induction p; simpl; auto. Qed.
Lemma lexlt_length_leftof p q : length p = length q -> lexlt p q -> leftof p q.
Proof.
  revert q; induction p as [|i p IH]; intros [|j q] L H; simpl in *; try tauto; try discriminate.
  destruct H as [H|[-> H]]; auto.
Qed.

Lemma ss_app {X} (R : X -> X -> Prop) l l' :
  StronglySorted R l -> StronglySorted R l' -> (forall x y, In x l -> In y l' -> R x y) ->
  StronglySorted R (l ++ l').
Proof.
  induction l as [|x l IH]; intros H1 H2 H3; simpl; auto.
  inversion H1; subst. constructor.
  - apply IH; auto. intros; apply H3; auto; right; auto.
  - apply Forall_app; split; auto. apply Forall_forall; intros; apply H3; auto; left; auto.
Qed.
Lemma ss_flat_map {X Y} (S : X -> X -> Prop) (R : Y -> Y -> Prop) (g : X -> list Y) l :
  StronglySorted S l -> (forall x, In x l -> StronglySorted R (g x)) ->
  (forall x y a b, In x l -> In y l -> S x y -> In a (g x) -> In b (g y) -> R a b) ->
  StronglySorted R (flat_map g l).
Proof.
  induction l as [|x l IH]; intros H1 H2 H3; simpl; [constructor|].
  inversion H1 as [|? ? Hl Hx]; subst. apply ss_app.
  - apply H2; left; auto.
  - apply IH; auto; intros; [apply H2|eapply H3; eauto]; right; auto.
  - intros a b Ha Hb. apply in_flat_map in Hb. destruct Hb as [y [Hy Hb]].
    rewrite Forall_forall in Hx.
    apply (H3 x y a b); auto; [left; auto | right; auto].
Qed.
Lemma ss_filter {X} (R : X -> X -> Prop) g l : StronglySorted R l -> StronglySorted R (filter g l).
Proof.
  induction l as [|x l IH]; intro H; simpl; [constructor|]. inversion H; subst.
  destruct (g x); auto. constructor; auto.
  rewrite Forall_forall in *. intros y Hy. apply filter_In in Hy. apply H3; tauto.
Qed.
Lemma ss_map {X Y} (R : Y -> Y -> Prop) (h : X -> Y) l :
  StronglySorted (fun a b => R (h a) (h b)) l <-> StronglySorted R (map h l).
Proof.
  induction l as [|x l IH]; simpl; split; intro H; try constructor; inversion H; subst.
  - apply IH; auto.
  - rewrite Forall_forall in *. intros y Hy. apply in_map_iff in Hy. destruct Hy as [z [<- Hz]]; auto.
  - apply IH; auto.
  - rewrite Forall_forall in *. intros y Hy. apply H3. apply in_map; auto.
Qed.
Lemma ss_nodup {X} (R : X -> X -> Prop) l :
  (forall x, ~ R x x) -> StronglySorted R l -> NoDup l.
Proof.
  intros HR H; induction H; constructor; auto.
  intro I. rewrite Forall_forall in H0. apply (HR a); auto.
Qed.
Lemma ss_impl {X} (R S : X -> X -> Prop) l :
  (forall x y, In x l -> In y l -> R x y -> S x y) -> StronglySorted R l -> StronglySorted S l.
Proof.
  intros HRS H; induction H; constructor; auto.
  - apply IHStronglySorted. intros; apply HRS; auto; right; auto.
  - rewrite Forall_forall in *. intros; apply HRS; auto; [left; auto|right; auto].
Qed.

Lemma enum_kids_sorted {A} (ks : list (option (node A))) j :
  StronglySorted (fun a b => fst a < fst b) (enum_kids j ks).
Proof.
  revert j; induction ks as [|[k|] ks IH]; intro j; simpl; try constructor; auto.
  rewrite Forall_forall. intros [i c] H. apply in_enum_kids in H. simpl; lia.
Qed.
Definition cleft {A} (a b : path * node A) := leftof (fst a) (fst b).
Lemma kids_of_sorted {A} p (n : node A) : StronglySorted cleft (kids_of p n).
Proof.
  unfold kids_of. apply (proj1 (ss_map cleft _ _)). eapply ss_impl; [|apply enum_kids_sorted].
  intros [i k] [j k'] _ _ H; unfold cleft; simpl in *. apply leftof_snoc; auto.
Qed.

Lemma preorder_sorted {A} p (n : node A) :
  StronglySorted (fun a b => lexlt (fst a) (fst b)) (preorder p n).
Proof.
  revert p; induction n as [m d ks IH] using node_ind'; intro p.
  rewrite preorder_eq. constructor.
  - eapply ss_flat_map; [apply kids_of_sorted| |].
    + intros [q k] H. apply in_kids_of in H. destruct H as [i [-> Hi]]. eapply IH; eauto.
    + intros [q k] [q' k'] [a na] [b nb] _ _ HS Ha Hb. unfold cleft in HS; simpl in *.
      apply in_preorder in Ha. destruct Ha as [r [-> _]].
      apply in_preorder in Hb. destruct Hb as [r' [-> _]].
      apply leftof_lexlt, leftof_app; auto.
  - rewrite Forall_forall. intros [q k] H. apply in_flat_map in H.
    destruct H as [[q' k'] [H1 H2]]. apply in_kids_of in H1. destruct H1 as [i [-> _]].
    apply in_preorder in H2. destruct H2 as [r [-> _]]. simpl.
    rewrite <- app_assoc. apply lexlt_ext.
Qed.

Lemma lv_sorted {A} k (q : list (path * node A)) :
  StronglySorted cleft q -> StronglySorted cleft (lv k q).
Proof.
  revert q. induction k as [|k IH]; intros q H.
  - rewrite lv_0; auto.
  - assert (E : lv (S k) q = lv k (flat_map (fun c => kids_of (fst c) (snd c)) q)).
    { unfold lv. clear H. induction q as [|c q IHq]; auto.
      cbn [flat_map]. rewrite flat_map_app, IHq; auto. }
    rewrite E. apply IH.
    eapply ss_flat_map; [exact H| |].
    + intros; apply kids_of_sorted.
    + intros [x nx] [y ny] [a na] [b nb] _ _ HS Ha Hb.
      apply in_kids_of in Ha. destruct Ha as [i [-> _]].
      apply in_kids_of in Hb. destruct Hb as [j [-> _]].
      unfold cleft in *; simpl in *. apply leftof_app; auto.
Qed.

Lemma in_lv {A} k (q : list (path * node A)) x c :
  In (x, c) (lv k q) <-> exists p n r, In (p, n) q /\ length r = k /\ x = p ++ r /\ nget n r = Some c.
Proof.
  unfold lv. rewrite in_flat_map. split.
  - intros [[p n] [H1 H2]]. apply in_nodes_at in H2. destruct H2 as [r H2]. exists p, n, r; auto.
  - intros [p [n [r [H1 H2]]]]. exists (p, n); split; auto. apply in_nodes_at; eauto.
Qed.

Lemma levels_sorted {A} N L (q : list (path * node A)) :
  StronglySorted cleft q -> (forall c, In c q -> length (fst c) = L) ->
  StronglySorted (fun a b => levlt (fst a) (fst b)) (levels N q).
Proof.
  intros H HL. unfold levels.
  assert (Hlen : forall k a, In a (lv k q) -> length (fst a) = L + k).
  { intros k [x c] Hx. apply in_lv in Hx. destruct Hx as [p [n [r [H1 [H2 [-> _]]]]]]. simpl.
    rewrite app_length, H2. specialize (HL _ H1). simpl in HL; lia. }
  assert (HS : StronglySorted lt (seq 0 N)).
  { generalize 0. induction N as [|N IH]; intro s; simpl; constructor; auto.
    rewrite Forall_forall. intros x Hx; apply in_seq in Hx; lia. }
  eapply ss_flat_map; [exact HS| |].
  - intros k _. eapply ss_impl; [|apply lv_sorted; exact H].
    intros a b Ha Hb Hab. right. rewrite (Hlen _ _ Ha), (Hlen _ _ Hb). split; auto.
    apply leftof_lexlt; auto.
  - intros k k' a b _ _ Hk Ha Hb. left. rewrite (Hlen _ _ Ha), (Hlen _ _ Hb). lia.
Qed.

(** ** roots *)
Lemma in_index_from {X} (l : list X) j i x :
  In (i, x) (index_from j l) <-> j <= i /\ nth_error l (i - j) = Some x.
Proof.
  revert j; induction l as [|y l IH]; intro j; simpl.
  - split; [tauto|]. intros [_ E]; destruct (i - j); discriminate.
  - rewrite IH. split.
    + intros [E|[E1 E2]].
      * injection E as -> ->. rewrite Nat.sub_diag; auto.
      * split; [lia|]. replace (i - j) with (S (i - S j)) by lia; auto.
    + intros [E1 E2]. destruct (Nat.eq_dec i j) as [->|H].
      * rewrite Nat.sub_diag in E2; simpl in E2; left; congruence.
      * right; split; [lia|]. replace (i - j) with (S (i - S j)) in E2 by lia; auto.
Qed.
Lemma in_roots {A} (f : forest A) p n :
  In (p, n) (roots f) <-> exists i, p = [i] /\ nth_error f i = Some n.
Proof.
  unfold roots. rewrite in_map_iff. split.
  - intros [[i x] [E H]]. injection E as <- <-. apply in_index_from in H.
    rewrite Nat.sub_0_r in H. exists i; tauto.
  - intros [i [-> H]]. exists (i, n); split; auto. apply in_index_from.
    rewrite Nat.sub_0_r; split; auto; lia.
Qed.
Lemma roots_sorted {A} (f : forest A) : StronglySorted cleft (roots f).
Proof.
  unfold roots. apply (proj1 (ss_map cleft _ _)).
  assert (G : forall j, StronglySorted (fun a b : nat * node A => fst a < fst b) (index_from j f)).
  { induction f as [|x f IH]; intro j; simpl; constructor; auto.
    rewrite Forall_forall. intros [i y] H. apply in_index_from in H. simpl; lia. }
  eapply ss_impl; [|apply G]. intros [i x] [j y] _ _ H; unfold cleft; simpl in *; auto.
Qed.
Lemma qsize_roots {A} (f : forest A) : qsize (roots f) = fsize f.
Proof.
  unfold roots, qsize. rewrite map_map; simpl. generalize 0.
  induction f as [|x f IH]; intro j; simpl; auto.
Qed.

Definition fheight {A} (f : forest A) : nat := fold_right (fun n s => Nat.max (height n) s) 0 f.
Lemma fheight_root {A} (f : forest A) i n : nth_error f i = Some n -> height n <= fheight f.
Proof.
  revert i; induction f as [|x f IH]; intros [|i] H; simpl in *; try discriminate.
  - injection H as ->; lia.
  - apply IH in H; lia.
Qed.

Lemma ftraverse_dfs {A} (f : forest A) fl :
  ftraverse f fl DepthFirst = keep fl (flat_map (fun c => preorder (fst c) (snd c)) (roots f)).
Proof.
  unfold ftraverse. rewrite trav_dfs.
  - rewrite rev_involutive; auto.
  - rewrite qsize_rev, qsize_roots; lia.
Qed.
Lemma ftraverse_bfs {A} (f : forest A) fl :
  ftraverse f fl BreadthFirst = keep fl (levels (fheight f) (roots f)).
Proof.
  unfold ftraverse. apply trav_bfs.
  - rewrite qsize_roots; lia.
  - intros [p n] H. apply in_roots in H. destruct H as [i [_ H]]. simpl. eapply fheight_root; eauto.
Qed.

Lemma fget_cons {A} (f : forest A) i r :
  fget f (i :: r) = match nth_error f i with Some t => nget t r | None => None end.
Proof. auto. Qed.


Lemma in_ftraverse {A} (f : forest A) fl md p n :
  In (p, n) (ftraverse f fl md) <-> fget f p = Some n /\ fl_ok fl n.
Proof.
  destruct md.
  - rewrite ftraverse_dfs, keep_in. cbn [snd].
    assert (G : In (p, n) (flat_map (fun c => preorder (fst c) (snd c)) (roots f)) <-> fget f p = Some n).
    { rewrite in_flat_map. split.
      - intros [[q t] [H1 H2]]. apply in_roots in H1. destruct H1 as [i [-> Hi]].
        simpl in H2. apply in_preorder in H2. destruct H2 as [r [-> Hr]]. simpl. rewrite Hi; auto.
      - destruct p as [|i r]; [discriminate|]. simpl.
        destruct (nth_error f i) as [t|] eqn:Hi; [|discriminate]. intro H.
        exists ([i], t); split; [apply in_roots; eauto|]. simpl. apply in_preorder; exists r; auto. }
    rewrite G. unfold fl_ok. tauto.
  - rewrite ftraverse_bfs, keep_in. cbn [snd].
    assert (G : In (p, n) (levels (fheight f) (roots f)) <-> fget f p = Some n).
    { unfold levels. rewrite in_flat_map. split.
      - intros [k [_ H]]. apply in_lv in H. destruct H as [q [t [r [H1 [_ [-> H3]]]]]].
        apply in_roots in H1. destruct H1 as [i [-> Hi]]. simpl. rewrite Hi; auto.
      - destruct p as [|i r]; [discriminate|]. simpl.
        destruct (nth_error f i) as [t|] eqn:Hi; [|discriminate]. intro H.
        exists (length r). split.
        + apply in_seq. pose proof (height_nget _ _ H). pose proof (height_pos n).
          pose proof (fheight_root _ _ Hi). lia.
        + apply in_lv. exists [i], t, r. repeat split; auto. apply in_roots; eauto. }
    rewrite G. unfold fl_ok. tauto.
Qed.

Lemma keep_sorted {A} (R : path * node A -> path * node A -> Prop) fl l :
  StronglySorted R l -> StronglySorted R (keep fl l).
Proof. destruct fl; simpl; auto. apply ss_filter. Qed.

Lemma ftraverse_sorted {A} (f : forest A) fl md :
  StronglySorted (match md with DepthFirst => lexlt | BreadthFirst => levlt end)
                 (map fst (ftraverse f fl md)).
Proof.
  destruct md.
  - rewrite ftraverse_dfs. apply (proj1 (ss_map _ _ _)), keep_sorted.
    eapply ss_flat_map; [apply roots_sorted| |].
    + intros; apply preorder_sorted.
    + intros [x nx] [y ny] [a na] [b nb] _ _ HS Ha Hb. unfold cleft in HS; simpl in *.
      apply in_preorder in Ha. destruct Ha as [r [-> _]].
      apply in_preorder in Hb. destruct Hb as [r' [-> _]].
      apply leftof_lexlt, leftof_app; auto.
  - rewrite ftraverse_bfs. apply (proj1 (ss_map _ _ _)), keep_sorted.
    apply levels_sorted with (L := 1).
    + apply roots_sorted.
    + intros [p n] H. apply in_roots in H. destruct H as [i [-> _]]; auto.
Qed.
Lemma ftraverse_nodup {A} (f : forest A) fl md : NoDup (map fst (ftraverse f fl md)).
Proof.
  eapply ss_nodup; [|apply ftraverse_sorted].
  destruct md; [apply lexlt_irrefl | apply levlt_irrefl].
Qed.

(** trees: the same with base path [p] *)
Lemma in_traverse {A} p (t : node A) fl md q n :
  In (q, n) (traverse p t fl md) <-> (exists r, q = p ++ r /\ nget t r = Some n) /\ fl_ok fl n.
Proof.
  destruct md; [rewrite traverse_dfs|rewrite traverse_bfs]; rewrite keep_in;
    [rewrite in_preorder|rewrite in_level_order]; unfold fl_ok; simpl; tauto.
Qed.
Lemma traverse_sorted {A} p (t : node A) fl md :
  StronglySorted (match md with DepthFirst => lexlt | BreadthFirst => levlt end)
                 (map fst (traverse p t fl md)).
Proof.
  destruct md.
  - rewrite traverse_dfs. apply (proj1 (ss_map _ _ _)), keep_sorted, preorder_sorted.
  - unfold traverse. rewrite trav_bfs with (N := height t).
    + apply (proj1 (ss_map _ _ _)), keep_sorted. apply levels_sorted with (L := length p).
      * constructor; constructor.
      * intros c [<-|[]]; auto.
    + unfold qsize; simpl; lia.
    + intros c [<-|[]]; auto.
Qed.

(** a strictly sorted list is determined by its elements *)
Lemma sorted_unique {X} (R : X -> X -> Prop) (l l' : list X) :
  (forall x, ~ R x x) -> (forall x y z, R x y -> R y z -> R x z) ->
  StronglySorted R l -> StronglySorted R l' -> (forall x, In x l <-> In x l') -> l = l'.
Proof.
  intros Hi Ht H; revert l'. induction H as [|x l H IH Hx]; intros l' H' E.
  - destruct l' as [|y l']; auto. exfalso; apply (E y); left; auto.
  - destruct l' as [|y l']; [exfalso; apply (E x); left; auto|].
    inversion H' as [|? ? Hl' Hy]; subst. rewrite Forall_forall in Hx, Hy.
    assert (x = y).
    { assert (I1 : In x (y :: l')) by (apply E; left; auto).
      assert (I2 : In y (x :: l)) by (apply E; left; auto).
      destruct I1 as [I1|I1]; auto. destruct I2 as [I2|I2]; auto.
      exfalso; apply (Hi x); eapply Ht; [apply Hx; eauto|apply Hy; auto]. }
    subst y. f_equal. apply IH; auto. intro z; split; intro Hz.
    + assert (I : In z (x :: l')) by (apply E; right; auto). destruct I as [<-|I]; auto.
      exfalso; apply (Hi x); auto.
    + assert (I : In z (x :: l)) by (apply E; right; auto). destruct I as [<-|I]; auto.
      exfalso; apply (Hi x); auto.
Qed.


Lemma has_children_fl {A} (n : node A) sf :
  has_children n sf = true <-> exists i k, nth_error (n_slots n) i = Some (Some k) /\ fl_ok sf k.
Proof. apply has_children_spec. Qed.
Lemma has_children_false {A} (n : node A) sf :
  has_children n sf = false <-> forall i k, nth_error (n_slots n) i = Some (Some k) -> ~ fl_ok sf k.
Proof.
  split.
  - intros H i k Hi Hk. assert (E : has_children n sf = true) by (apply has_children_fl; eauto). congruence.
  - intro H. destruct (has_children n sf) eqn:E; auto. apply has_children_fl in E.
    destruct E as [i [k [Hi Hk]]]. exfalso; eapply H; eauto.
Qed.

Lemma in_fget_leaves {A} (f : forest A) fl sf md p n :
  In (p, n) (fget_leaves f fl sf md) <-> fget f p = Some n /\ is_leaf_of sf n /\ fl_ok fl n.
Proof.
  unfold fget_leaves, is_leaf_of.
  assert (G : In (p, n) (filter (fun c => negb (has_children (snd c) sf)) (ftraverse f sf md)) <->
      fget f p = Some n /\ fl_ok sf n /\
      forall i k, nth_error (n_slots n) i = Some (Some k) -> ~ fl_ok sf k).
  { rewrite filter_In, in_ftraverse. cbn [snd]. rewrite negb_true_iff, has_children_false. tauto. }
  destruct fl as [g|].
  - rewrite filter_In, G. unfold fl_ok at 4. cbn [snd]. tauto.
  - rewrite G. simpl. tauto.
Qed.
Lemma in_get_leaves {A} p (t : node A) fl sf md q n :
  In (q, n) (get_leaves p t fl sf md) <->
  (exists r, q = p ++ r /\ nget t r = Some n) /\ is_leaf_of sf n /\ fl_ok fl n.
Proof.
  unfold get_leaves, is_leaf_of.
  assert (G : In (q, n) (filter (fun c => negb (has_children (snd c) sf)) (traverse p t sf md)) <->
      (exists r, q = p ++ r /\ nget t r = Some n) /\ fl_ok sf n /\
      forall i k, nth_error (n_slots n) i = Some (Some k) -> ~ fl_ok sf k).
  { rewrite filter_In, in_traverse. cbn [snd]. rewrite negb_true_iff, has_children_false. tauto. }
  destruct fl as [g|].
  - rewrite filter_In, G. unfold fl_ok at 4. cbn [snd]. tauto.
  - rewrite G. simpl. tauto.
Qed.
Lemma fget_leaves_nodup {A} (f : forest A) fl sf md : NoDup (map fst (fget_leaves f fl sf md)).
Proof.
  unfold fget_leaves.
  assert (G : NoDup (map fst (filter (fun c => negb (has_children (snd c) sf)) (ftraverse f sf md)))).
  { apply nodup_map_filter, ftraverse_nodup. }
  destruct fl; auto. apply nodup_map_filter; auto.
Qed.
Lemma get_leaves_nodup {A} p (t : node A) fl sf md : NoDup (map fst (get_leaves p t fl sf md)).
Proof.
  unfold get_leaves.
  assert (G : NoDup (map fst (filter (fun c => negb (has_children (snd c) sf)) (traverse p t sf md)))).
  { apply nodup_map_filter. eapply ss_nodup; [|apply traverse_sorted].
    destruct md; [apply lexlt_irrefl | apply levlt_irrefl]. }
  destruct fl; auto. apply nodup_map_filter; auto.
Qed.

(** ** fget / fupd *)
Lemma fget_app {A} (f : forest A) i p q :
  fget f ((i :: p) ++ q) = match fget f (i :: p) with Some n => nget n q | None => None end.
Proof. simpl. destruct (nth_error f i); auto. apply nget_app. Qed.
Lemma fget_snoc {A} (f : forest A) p i : p <> [] ->
  fget f (p ++ [i]) = match fget f p with
                      | Some n => match nth_error (n_slots n) i with Some (Some k) => Some k | _ => None end
                      | None => None end.
Proof.
  destruct p as [|j p]; [tauto|]. intros _. rewrite fget_app. destruct (fget f (j :: p)); auto.
Qed.
Lemma fget_fupd_same {A} p g (f : forest A) : fget (fupd p g f) p = option_map g (fget f p).
Proof.
  destruct p as [|i p]; simpl; auto. destruct (nth_error f i) as [t|] eqn:E.
  - rewrite nth_set_nth_eq by (apply nth_error_Some; congruence). apply nget_nupd_same.
  - rewrite E; auto.
Qed.
Lemma fget_fupd_below {A} p q g (f : forest A) : p <> [] ->
  fget (fupd p g f) (p ++ q) = match fget f p with Some n => nget (g n) q | None => None end.
Proof.
  destruct p as [|i p]; [tauto|]. intros _. rewrite fget_app, fget_fupd_same.
  destruct (fget f (i :: p)); auto.
Qed.
Lemma fget_fupd_off {A} p q g (f : forest A) :
  ~ prefix p q -> ~ prefix q p -> fget (fupd p g f) q = fget f q.
Proof.
  intros H1 H2. destruct p as [|i p]; [exfalso; apply H1, prefix_nil|].
  destruct q as [|j q]; [exfalso; apply H2, prefix_nil|]. simpl.
  destruct (nth_error f i) as [t|] eqn:E; auto.
  destruct (Nat.eq_dec i j) as [->|Hij].
  - rewrite nth_set_nth_eq by (apply nth_error_Some; congruence). rewrite E.
    apply nget_nupd_off; intros [r ->]; [apply H1|apply H2]; exists r; auto.
  - rewrite nth_set_nth_neq; auto.
Qed.
Definition fobs {A} (f : forest A) (p : path) : option (meta * A * list bool) := option_map obs (fget f p).
Lemma fobs_fupd_above {A} p i r g (f : forest A) :
  fobs (fupd (p ++ i :: r) g f) p = fobs f p.
Proof.
  unfold fobs. destruct p as [|j p]; auto. simpl.
  destruct (nth_error f j) as [t|] eqn:E.
  - rewrite nth_set_nth_eq by (apply nth_error_Some; congruence).
    apply (nobs_nupd_above p i r g t).
  - rewrite E; auto.
Qed.
Lemma fupd_length {A} p g (f : forest A) : length (fupd p g f) = length f.
Proof. destruct p as [|i p]; simpl; auto. destruct (nth_error f i); auto. apply set_nth_length. Qed.

Lemma fobs_ext {A} (f f' : forest A) : (forall p, fobs f p = fobs f' p) -> f = f'.
Proof.
  intro H. apply nth_error_ext; intro i.
  assert (Hi : forall r, fobs f (i :: r) = fobs f' (i :: r)) by auto.
  unfold fobs in Hi; simpl in Hi.
  destruct (nth_error f i) as [t|] eqn:E1; destruct (nth_error f' i) as [t'|] eqn:E2; auto.
  - f_equal. apply nobs_ext. intro p; apply (Hi p).
  - specialize (Hi []); simpl in Hi; discriminate.
  - specialize (Hi []); simpl in Hi; discriminate.
Qed.

(** * C01-C05: traversal, leaves, labels, rooting. Statements only. *)
From Coq Require Import List Arith Bool Lia Sorted.
Import ListNotations.
From Verif Require Import Tree Forest SpecForest TreeFacts ForestFacts LabelFacts RootFacts Examples.

(** ** C01 *)
(** Every existing object (with the flag, if one is given) is yielded, each
    exactly once and in the documented order; nothing else is yielded. *)
Theorem C01_forest_traverse : forall A (f : forest A) fl md,
  (forall p n, In (p, n) (ftraverse f fl md) <->
               fget f p = Some n /\ match fl with None => True | Some g => In g (labels n) end) /\
  NoDup (map fst (ftraverse f fl md)) /\
  StronglySorted (match md with DepthFirst => lexlt | BreadthFirst => levlt end)
                 (map fst (ftraverse f fl md)).
Proof.
  intros A f fl md. split; [|split; [exact (ftraverse_nodup f fl md)|exact (ftraverse_sorted f fl md)]].
  intros p n. rewrite in_ftraverse. destruct fl as [g|]; simpl; [|tauto].
  rewrite (mem_flag_in g (m_flags (n_meta n))). tauto.
Qed.
Print Assumptions C01_forest_traverse.

Theorem C01_tree_traverse : forall A (b : path) (t : node A) fl md,
  (forall p n, In (p, n) (traverse b t fl md) <->
               (exists r, p = b ++ r /\ nget t r = Some n) /\
               match fl with None => True | Some g => In g (labels n) end) /\
  NoDup (map fst (traverse b t fl md)) /\
  StronglySorted (match md with DepthFirst => lexlt | BreadthFirst => levlt end)
                 (map fst (traverse b t fl md)).
Proof.
  intros A b t fl md. split; [|split].
  - intros p n. rewrite in_traverse. destruct fl as [g|]; simpl; [|tauto].
    rewrite (mem_flag_in g (m_flags (n_meta n))). tauto.
  - eapply ss_nodup; [|apply traverse_sorted]. destruct md; [apply lexlt_irrefl|apply levlt_irrefl].
  - exact (traverse_sorted b t fl md).
Qed.
Print Assumptions C01_tree_traverse.

(** the visits on a non-trivial forest, and the effect of a flag *)
Example C01_example :
  map fst (ftraverse ex_f None DepthFirst) =
    [[0];[0;0];[0;1];[1];[1;0];[1;0;0];[1;0;1];[1;0;1;0];[1;0;1;1];[1;1]] /\
  map fst (ftraverse ex_f None BreadthFirst) =
    [[0];[1];[0;0];[0;1];[1;0];[1;1];[1;0;0];[1;0;1];[1;0;1;0];[1;0;1;1]] /\
  map fst (ftraverse ex_f (Some 1) DepthFirst) = [[1;0;1;0]].
Proof. vm_compute. repeat split. Qed.

(** ** C02 *)
Theorem C02_get_leaves : forall A (f : forest A) fl sf md,
  (forall p n, In (p, n) (fget_leaves f fl sf md) <->
     fget f p = Some n /\
     (match sf with None => True | Some s => In s (labels n) end) /\
     (forall i k, nth_error (n_slots n) i = Some (Some k) ->
        match sf with None => False | Some s => ~ In s (labels k) end) /\
     (match fl with None => True | Some g => In g (labels n) end)) /\
  NoDup (map fst (fget_leaves f fl sf md)).
Proof.
  intros A f fl sf md. split; [|apply fget_leaves_nodup].
  intros p n. rewrite in_fget_leaves. unfold is_leaf_of, fl_ok.
  assert (Hm : forall (k : node A) g, is_marked k (Some g) = true <-> In g (labels k))
    by (intros; apply mem_flag_in).
  destruct fl as [g|], sf as [s|]; rewrite ?Hm; split; intros H; decompose [and] H; repeat split; auto;
    intros i k Hk; try (rewrite Hm); eauto; try (intro Hc; apply Hm in Hc; eapply H; eauto; fail);
    match goal with K : forall i k, _ -> _ |- _ => specialize (K i k Hk) end;
    rewrite ?Hm in *; tauto.
Qed.
Print Assumptions C02_get_leaves.

Theorem C02_tree_get_leaves : forall A b (t : node A) fl sf md,
  (forall q n, In (q, n) (get_leaves b t fl sf md) <->
     (exists r, q = b ++ r /\ nget t r = Some n) /\ is_leaf_of sf n /\ fl_ok fl n) /\
  NoDup (map fst (get_leaves b t fl sf md)).
Proof. intros. split; [intros; apply in_get_leaves|apply get_leaves_nodup]. Qed.
Print Assumptions C02_tree_get_leaves.

Example C02_example :
  map fst (fget_leaves ex_f None None BreadthFirst) =
    [[0;0];[0;1];[1;1];[1;0;0];[1;0;1;0];[1;0;1;1]] /\
  map fst (fget_leaves ex_f (Some 2) None BreadthFirst) = [[1;1]] /\
  map fst (fget_leaves (root_subtrees 2 ex_f) None (Some 2) BreadthFirst) = [[0];[1;0];[1;1]].
Proof. vm_compute. repeat split. Qed.

(** ** C03 *)
Theorem C03_is_marked : forall A (n : node A) g,
  (is_marked n (Some g) = true <-> In g (labels n)) /\
  (is_marked n None = true <-> labels n <> []).
Proof.
  intros A n g. split; [apply mem_flag_in|]. unfold is_marked, labels.
  destruct (m_flags (n_meta n)); split; congruence.
Qed.
Print Assumptions C03_is_marked.

(** node.mark(g): the label [g] is added to this node; every other label of
    this node, and everything about every other node, stays. *)
Theorem C03_mark : forall A (f : forest A) p g,
  let f' := fupd p (mark_here g) f in
  same_but (fun q h => q = p /\ h = g) f f' /\
  (present f p = true -> marked_at f' p g = true).
Proof.
  intros A f p g f'. split.
  - eapply relabelled_same; [apply relabelled_mark|]. intros q x h Hh. simpl in Hh |- *.
    destruct (peq p q) eqn:E; auto. rewrite mem_add. apply peq_true in E.
    destruct (Nat.eqb_spec h g); auto. subst; tauto.
  - intro HP. unfold f'. rewrite marked_mark, HP.
    assert (E : peq p p = true) by (apply peq_true; auto). rewrite E. apply orb_true_r.
Qed.
Print Assumptions C03_mark.

Theorem C03_unmark : forall A (f : forest A) p g,
  let f' := fupd p (unmark_here (Some g)) f in
  same_but (fun q h => q = p /\ h = g) f f' /\ marked_at f' p g = false.
Proof.
  intros A f p g f'. pose proof (relabelled_unmark p (Some g) f) as R. split.
  - eapply relabelled_same; [apply R|]. intros q x h Hh. simpl in Hh |- *.
    destruct (peq p q) eqn:E; auto. rewrite mem_del. apply peq_true in E.
    destruct (Nat.eqb_spec h g); auto. subst; tauto.
  - unfold f'. rewrite (relabelled_marked p g R). destruct (fget f p); auto.
    assert (E : peq p p = true) by (apply peq_true; auto). rewrite E, mem_del, Nat.eqb_refl; auto.
Qed.
Print Assumptions C03_unmark.

(** node.unmark() clears all labels of the node *)
Theorem C03_unmark_all : forall A (f : forest A) p,
  let f' := fupd p (unmark_here None) f in
  same_but (fun q h => q = p) f f' /\ forall g, marked_at f' p g = false.
Proof.
  intros A f p f'. pose proof (relabelled_unmark p None f) as R. split.
  - eapply relabelled_same; [apply R|]. intros q x h Hh. simpl in Hh |- *.
    destruct (peq p q) eqn:E; auto. apply peq_true in E. subst; tauto.
  - intro g. unfold f'. rewrite (relabelled_marked p g R). destruct (fget f p); auto.
    assert (E : peq p p = true) by (apply peq_true; auto). rewrite E; auto.
Qed.
Print Assumptions C03_unmark_all.

(** mark(g, recursive=True): exactly the node and its progeny gain [g] *)
Theorem C03_mark_recursive : forall A (f : forest A) p g, p <> [] ->
  let f' := fupd p (mark_rec g) f in
  same_but (fun q h => prefix p q /\ h = g) f f' /\
  forall q, present f q = true -> prefix p q -> marked_at f' q g = true.
Proof.
  intros A f p g Hp f'. pose proof (relabelled_mark_rec g f Hp) as R. split.
  - eapply relabelled_same; [apply R|]. intros q x h Hh. simpl in Hh |- *.
    destruct (prefixb p q) eqn:E; auto. rewrite mem_add. apply prefixb_true in E.
    destruct (Nat.eqb_spec h g); auto. subst; tauto.
  - intros q HP Hq. unfold f'. rewrite (relabelled_marked q g R).
    apply prefixb_true in Hq. rewrite Hq. unfold present in HP. destruct (fget f q); auto.
    rewrite mem_add, Nat.eqb_refl; auto.
Qed.
Print Assumptions C03_mark_recursive.

Theorem C03_unmark_recursive : forall A (f : forest A) p g, p <> [] ->
  let f' := fupd p (unmark_rec (Some g)) f in
  same_but (fun q h => prefix p q /\ h = g) f f' /\
  forall q, prefix p q -> marked_at f' q g = false.
Proof.
  intros A f p g Hp f'. pose proof (relabelled_unmark_rec (Some g) f Hp) as R. split.
  - eapply relabelled_same; [apply R|]. intros q x h Hh. simpl in Hh |- *.
    destruct (prefixb p q) eqn:E; auto. rewrite mem_del. apply prefixb_true in E.
    destruct (Nat.eqb_spec h g); auto. subst; tauto.
  - intros q Hq. unfold f'. rewrite (relabelled_marked q g R).
    apply prefixb_true in Hq. rewrite Hq. destruct (fget f q); auto.
    simpl. rewrite mem_del, Nat.eqb_refl; auto.
Qed.
Print Assumptions C03_unmark_recursive.

(** mark(g, recursive=True, reverse=True): exactly the node and its ancestors *)
Theorem C03_mark_reverse : forall A (f : forest A) p g, p <> [] ->
  let f' := mark_up g p f in
  same_but (fun q h => prefix q p /\ h = g) f f' /\
  forall q, present f q = true -> prefix q p -> marked_at f' q g = true.
Proof.
  intros A f p g Hp f'. pose proof (relabelled_mark_up p g f) as R. split.
  - eapply relabelled_same; [apply R|]. intros q x h Hh. cbv beta in Hh |- *.
    match goal with |- context [if ?b then _ else _] => destruct b eqn:E end; auto. rewrite mem_add.
    apply existsb_peq, self_or_anc in E; auto.
    destruct (Nat.eqb_spec h g); auto. subst; tauto.
  - intros q HP Hq. unfold f'. rewrite (relabelled_marked q g R).
    match goal with |- context [if ?b then _ else _] => assert (E : b = true) end.
    { apply existsb_peq, self_or_anc; auto. split; auto. intros ->. discriminate. }
    rewrite E. unfold present in HP. destruct (fget f q); auto. rewrite mem_add, Nat.eqb_refl; auto.
Qed.
Print Assumptions C03_mark_reverse.

(** Vertex labels: the same set semantics *)
Theorem C03_vertex_labels : forall g h m,
  v_is_marked (Some h) (v_mark (Some g) m) = (h =? g) || v_is_marked (Some h) m /\
  v_is_marked (Some h) (v_unmark (Some g) m) = negb (h =? g) && v_is_marked (Some h) m /\
  v_is_marked None (v_unmark None m) = false.
Proof. intros; repeat split; [apply mem_add|apply mem_del]. Qed.
Print Assumptions C03_vertex_labels.

(** Markable.unmark does nothing: the label survives *)
Theorem C03_markable_unmark_refuted :
  exists g m, mk_is_marked g (mk_unmark g (mk_mark g m)) = true.
Proof. exists 1, []. reflexivity. Qed.
Print Assumptions C03_markable_unmark_refuted.

Example C03_example :
  marked_at (fupd [1; 0] (mark_rec 5) ex_f) [1; 0; 1; 1] 5 = true /\
  marked_at (fupd [1; 0] (mark_rec 5) ex_f) [1; 1] 5 = false /\
  marked_at (mark_up 5 [1; 0; 1] ex_f) [1] 5 = true.
Proof. vm_compute. repeat split. Qed.

(** ** C04 *)
Theorem C04_root_subtrees : forall A (f : forest A) s,
  let f' := root_subtrees s f in
  (* nothing but the label [s] changes *)
  same_but (only_flag s) f f' /\
  (* no mark is lost; the result is rooted and sibling-closed *)
  (forall p, marked_at f p s = true -> marked_at f' p s = true) /\
  rooted f' s /\ subtrees_rooted (Some s) f' = true /\
  (* it is the least such marking *)
  (forall S : path -> Prop, closed_set f S -> (forall p, marked_at f p s = true -> S p) ->
     forall p, marked_at f' p s = true -> S p) /\
  (* idempotent *)
  (forall p, marked_at (root_subtrees s f') p s = marked_at f' p s).
Proof.
  intros A f s f'. split; [apply root_subtrees_same|]. split; [intro; apply root_subtrees_mono|].
  pose proof (root_subtrees_rooted s f) as R. split; [exact R|]. split.
  - apply subtrees_rooted_iff; exact R.
  - split.
    + intros S HC HS p. apply root_subtrees_least; auto.
    + intro p. apply root_subtrees_idem; exact R.
Qed.
Print Assumptions C04_root_subtrees.

Example C04_example :
  map fst (ftraverse (root_subtrees 1 ex_f) (Some 1) DepthFirst) =
    [[0];[1];[1;0];[1;0;0];[1;0;1];[1;0;1;0];[1;0;1;1];[1;1]] /\
  subtrees_rooted (Some 1) ex_f = false.
Proof. vm_compute. repeat split. Qed.

(** ** C05 *)
Theorem C05_subtrees_rooted_decides : forall A (f : forest A) s,
  subtrees_rooted (Some s) f = true <->
  (forall i, present f [i] = true -> marked_at f [i] s = true) /\
  (forall a i r, a <> [] -> marked_at f (a ++ i :: r) s = true -> marked_at f a s = true) /\
  (forall a i j, a <> [] -> marked_at f (a ++ [i]) s = true -> present f (a ++ [j]) = true ->
     marked_at f (a ++ [j]) s = true).
Proof. intros. exact (subtrees_rooted_iff f s). Qed.
Print Assumptions C05_subtrees_rooted_decides.

Theorem C05_is_rooted_subtree_decides : forall A (t : node A) s,
  is_rooted_subtree s t = true <->
  (forall a i r, a <> [] -> marked_at [t] (a ++ i :: r) s = true -> marked_at [t] a s = true).
Proof. intros. exact (is_rooted_subtree_iff s t). Qed.
Print Assumptions C05_is_rooted_subtree_decides.

Theorem C05_make_rooted_subtree : forall A (t : node A) s,
  let t' := make_rooted_subtree s t in
  same_but (only_flag s) [t] [t'] /\
  is_rooted_subtree s t' = true /\
  (* exactly the marked nodes and their ancestors are marked *)
  (forall q, marked_at [t'] q s = true <-> q <> [] /\ exists r, marked_at [t] (q ++ r) s = true).
Proof.
  intros A t s t'. split; [apply make_rooted_same|]. split.
  - apply is_rooted_subtree_iff. intros a i r Ha H. apply make_rooted_iff in H.
    destruct H as [_ [r' H]]. apply make_rooted_iff. split; auto.
    rewrite <- app_assoc in H. eauto.
  - intro q. apply make_rooted_iff.
Qed.
Print Assumptions C05_make_rooted_subtree.

Example C05_example :
  is_rooted_subtree 1 ex_t4 = false /\ is_rooted_subtree 1 (make_rooted_subtree 1 ex_t4) = true /\
  subtrees_rooted (Some 2) (root_subtrees 2 ex_f) = true /\
  subtrees_rooted (Some 2) ex_f = false.
Proof. vm_compute. repeat split. Qed.

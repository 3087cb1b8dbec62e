(** * C06-C08: stored place of a node, lookup by address, forest positions. *)
From Coq Require Import List Arith Bool Lia.
Import ListNotations.
From Verif Require Import Tree Forest SpecForest History TreeFacts ForestFacts LabelFacts RootFacts
  PlaceFacts Examples.

(** ** C06 *)
(** After any history of API calls starting from the empty forest, every node's
    depth, address, position and type describe its place, and looking up its
    address in the forest returns it. *)
Theorem C06_place_invariant : forall A (kid : nat -> nat -> A -> A) (l : list op) f,
  run kid [] l = Ok f ->
  forall i r n, fget f (i :: r) = Some n ->
    m_depth (n_meta n) = length r /\
    m_addr (n_meta n) = i :: r /\
    m_pos (n_meta n) = Some (last (i :: r) 0) /\
    (m_type (n_meta n) = ROOT <-> r = []) /\
    (m_type (n_meta n) = LEAF <-> r <> [] /\ forall j k, nth_error (n_slots n) j <> Some (Some k)) /\
    (m_type (n_meta n) = BRANCH <-> r <> [] /\ exists j k, nth_error (n_slots n) j = Some (Some k)) /\
    ffind_node f (m_addr (n_meta n)) = Ok (inl (Some n)).
Proof.
  intros A kid l f E i r n En.
  assert (HP : fplaced f).
  { eapply run_placed; eauto. intros j t Ej. destruct j; discriminate. }
  pose proof En as En'. simpl in En'. destruct (nth_error f i) as [t|] eqn:Et; [|discriminate].
  destruct (HP i t Et) as [H Hpos]. destruct (H r n En') as [H1 [H2 [H3 H4]]].
  simpl in H2. split; auto. split; auto. split; [|split; [|split; [|split]]].
  - destruct r as [|x r] using rev_ind.
    + simpl in En'. injection En' as <-. simpl; auto.
    + rewrite (H4 x r eq_refl). rewrite app_comm_cons, last_last; auto.
  - rewrite H3. unfold expected_type. destruct r; split; try congruence.
    destruct (existsb _ _); congruence.
  - rewrite H3. unfold expected_type. destruct r as [|x r]; [split; [discriminate|tauto]|].
    rewrite has_children_shape. destruct (has_children n None) eqn:Ec; split; try discriminate.
    + intros [_ Hc]. apply has_children_fl in Ec. destruct Ec as [j [k [Ej _]]]. exfalso; eapply Hc; eauto.
    + intros _. split; [discriminate|]. intros j k Ej. rewrite has_children_false in Ec.
      apply (Ec j k Ej). exact I.
    + auto.
  - rewrite H3. unfold expected_type. destruct r as [|x r]; [split; [discriminate|tauto]|].
    rewrite has_children_shape. destruct (has_children n None) eqn:Ec; split; try discriminate.
    + intros _. split; [discriminate|]. apply has_children_fl in Ec. destruct Ec as [j [k [Ej _]]]. eauto.
    + auto.
    + intros [_ [j [k Ej]]]. rewrite has_children_false in Ec. exfalso; apply (Ec j k Ej). exact I.
  - rewrite H2. apply ffind_node_present; auto.
Qed.
Print Assumptions C06_place_invariant.

(** a free-standing tree: find_node finds every node by its path *)
Theorem C06_tree_find_node : forall A (t : node A) r n,
  nget t r = Some n -> tree_find_node t r = Ok (Some n).
Proof. intros A t r n. apply tree_find_node_present. Qed.
Print Assumptions C06_tree_find_node.

(** a non-trivial history *)
Example C06_example :
  match run ukid [] [OAddTree 4 tt; OAddTree 2 tt; ORefine None None None true; OMark [1; 0] 7;
                     ORefine None (Some 7) (Some 3) true; ODelete [0]; OCoarsen None None None true] with
  | Ok f => map fst (ftraverse f None DepthFirst) = [[0];[1];[1;0];[1;1]]
  | Err _ => False end.
Proof. vm_compute. reflexivity. Qed.

(** Tree.remove() leaves the parent with the wrong type: after removing its only
    children a BRANCH node stays a BRANCH. *)
Theorem C06_remove_type_refuted :
  exists (t : node unit) n,
    t = match bind (remove_child_at 0 (match nget ex_t2 [0] with Some n => n | None => ex_t2 end))
                   (remove_child_at 1) with
        | Ok c => nupd [0] (fun _ => c) ex_t2 | Err _ => ex_t2 end /\
    nget t [0] = Some n /\ has_children n None = false /\ m_type (n_meta n) = BRANCH.
Proof. eexists; eexists. split; [reflexivity|]. vm_compute. repeat split. Qed.
Print Assumptions C06_remove_type_refuted.

(** For a tree in a forest, Tree.find_node(node.get_node_address()) does not
    return the node: the address starts with the forest position, which
    find_node takes for a child position. *)
Theorem C06_tree_find_node_planted_refuted :
  exists (f : forest unit) (t n : node unit),
    run ukid [] [OAddTree 2 tt; OAddTree 2 tt; ORefine None None None true] = Ok f /\
    nth_error f 1 = Some t /\ nget t [0] = Some n /\ m_addr (n_meta n) = [1; 0] /\
    tree_find_node t (m_addr (n_meta n)) = Ok None.
Proof. do 3 eexists. split; [reflexivity|]. vm_compute. repeat split. Qed.
Print Assumptions C06_tree_find_node_planted_refuted.

(** ** C07 *)
(** Tree.find_node never returns a wrong node; it returns None for an address
    that names no node if every node has all of its children or none. *)
Theorem C07_tree_find_node : forall A (t : node A) r,
  (forall o, tree_find_node t r = Ok o -> o = nget t r) /\
  (all_or_none t -> tree_find_node t r = Ok (nget t r)).
Proof. intros; split; [intro; apply tree_find_node_sound|apply tree_find_node_total]. Qed.
Print Assumptions C07_tree_find_node.
Example C07_example : all_or_none ex_t3 /\ tree_find_node ex_t3 [1; 0] = Ok None.
Proof.
  split; [|reflexivity]. unfold all_or_none.
  assert (G : forallb (fun c => negb (has_children (snd c) None) ||
             forallb (fun o => match o with None => false | _ => true end) (n_slots (snd c)))
             (preorder [] ex_t3) = true) by (vm_compute; reflexivity).
  rewrite forallb_forall in G. intros r n i E Hc Hi.
  assert (Hin : In (r, n) (preorder [] ex_t3)) by (apply in_preorder; exists r; auto).
  specialize (G _ Hin). cbn [snd] in G. rewrite Hc in G. simpl in G. rewrite forallb_forall in G.
  apply nth_error_In in Hi. apply G in Hi. discriminate.
Qed.

(** with a missing child in the middle of the address the lookup raises *)
Theorem C07_tree_find_node_missing_refuted :
  exists (t : node unit), tree_find_node t [0; 0] = Err AttributeError /\ nget t [0; 0] = None.
Proof.
  exists (match delete_child_at 0 ex_t1 with Ok t => t | Err _ => ex_t1 end). split; reflexivity.
Qed.
Print Assumptions C07_tree_find_node_missing_refuted.

(** Forest.find_node: an address past a leaf returns the leaf instead of None *)
Theorem C07_forest_find_node_refuted :
  exists (f : forest unit) p n, fget f p = None /\ ffind_node f p = Ok (inl (Some n)).
Proof. exists ex_f, [0; 1; 1]. eexists. split; vm_compute; reflexivity. Qed.
Print Assumptions C07_forest_find_node_refuted.

(** What does hold of Forest.find_node: an address that names a node is found,
    and an address whose proper prefixes all have children is answered right. *)
Theorem C07_forest_find_node_partial : forall A (f : forest A) p,
  (forall n, fget f p = Some n -> ffind_node f p = Ok (inl (Some n))) /\
  (forall o n, ffind_node f p = Ok (inl o) -> fget f p = Some n -> o = Some n).
Proof.
  intros A f p. split.
  - intro n; apply ffind_node_present.
  - intros o n E En. rewrite (ffind_node_present _ _ En) in E. congruence.
Qed.
Print Assumptions C07_forest_find_node_partial.

(** ** C08 *)
(** Histories that add fresh trees and remove only the last one keep forest
    positions valid (a consequence of the invariant of C06). *)
Theorem C08_positions_partial : forall A (kid : nat -> nat -> A -> A) (l : list op) f,
  run kid [] l = Ok f -> fplaced f.
Proof. intros A kid l f E. eapply run_placed; eauto. intros j t Ej. destruct j; discriminate. Qed.
Print Assumptions C08_positions_partial.

(** Adding a tree that was split before: its subnodes keep addresses without the
    forest position, so looking them up in the forest fails. *)
Theorem C08_add_split_tree_refuted :
  exists (f : forest unit) n, add_tree ex_t1 [] = Ok f /\ fget f [0; 1] = Some n /\
    m_addr (n_meta n) = [1] /\ ffind_node f (m_addr (n_meta n)) = Ok (inl None).
Proof. do 2 eexists. split; [reflexivity|]. vm_compute. repeat split. Qed.
Print Assumptions C08_add_split_tree_refuted.

(** Removing a tree that is not the last one: later trees keep their old
    address, which now names no tree (or another one). *)
Theorem C08_remove_tree_refuted :
  exists (f f' : forest unit) t,
    run ukid [] [OAddTree 2 tt; OAddTree 2 tt] = Ok f /\ remove_tree 0 f = Ok f' /\
    nth_error f' 0 = Some t /\ m_addr (n_meta t) = [1] /\ m_pos (n_meta t) = Some 1 /\
    ffind_node f' (m_addr (n_meta t)) = Ok (inl None).
Proof. do 3 eexists. split; [reflexivity|]. split; [reflexivity|]. split; [reflexivity|]. vm_compute. repeat split. Qed.
Print Assumptions C08_remove_tree_refuted.

(** * C09, C10, C11: Forest.refine.
    Vocabulary: SpecForest.v.  [kid i n d] is the data that [split] gives to
    child [i] of [n] of an object with data [d] (a parameter: every theorem
    holds whatever the geometry). *)
From Coq Require Import List Arith Bool Lia Permutation.
Import ListNotations.
From Verif Require Import Tree Forest SpecForest TreeFacts ForestFacts LabelFacts RootFacts PlaceFacts
  RefineFacts RefineFacts2 Examples.

(** ** C11: what [refine] does to the objects and labels, for all arguments.
    [base f sf] is the forest after the rooting of the submesh label (C04). *)
Theorem C11_refine : forall A kid sf rf nl clean (f f' : forest A),
  distinct rf nl -> distinct rf sf ->
  refine kid sf rf nl clean f = Ok f' ->
  (* exactly the selected childless leaves get children, one for each slot *)
  (forall x, present f' x = true <->
     present f x = true \/
     exists p n i, selected (base f sf) sf rf p /\ fget f p = Some n /\
       (forall j k, nth_error (n_slots n) j <> Some (Some k)) /\ i < length (n_slots n) /\ x = p ++ [i]) /\
  (* the new children *)
  (forall p n i, selected (base f sf) sf rf p -> fget f p = Some n ->
     (forall j k, nth_error (n_slots n) j <> Some (Some k)) -> i < length (n_slots n) ->
     exists c, fget f' (p ++ [i]) = Some c /\ is_new_child kid n i c) /\
  (* old objects keep everything; those that are not split also type and children *)
  (forall x n, fget f x = Some n -> exists n', fget f' x = Some n' /\ body n' = body n /\
     (~ (selected (base f sf) sf rf x /\ forall j k, nth_error (n_slots n) j <> Some (Some k)) ->
      core n' = core n)) /\
  (* the refinement label: removed from the selected leaves iff clean_up *)
  (forall r x, rf = Some r ->
     (marked_at f' x r = true <->
      marked_at f x r = true /\ ~ (clean = true /\ selected (base f sf) sf rf x))) /\
  (* labels that are not arguments do not change *)
  (forall g x, sf <> Some g -> rf <> Some g -> nl <> Some g -> marked_at f' x g = marked_at f x g).
Proof.
  intros A kid sf rf nl clean f f' D1 D2 E.
  assert (HC : forall n : node A, has_children n None = false <-> forall j k, nth_error (n_slots n) j <> Some (Some k)).
  { intro n. rewrite has_children_false. split; intros H j k Hj; [eapply H; eauto; exact I|exfalso; eapply H; eauto]. }
  split; [|split; [|split; [|split]]].
  - intro x. rewrite (@refine_present A kid sf rf nl clean f f' x D1 E).
    split; (intros [H|[p [n [i [H1 [H2 [H3 [H4 H5]]]]]]]]; [left; auto|right; exists p, n, i]);
      (split; [auto|split; [auto|split; [apply HC; auto|auto]]]).
  - intros p n i H1 H2 H3 H4. apply (@refine_new A kid sf rf nl clean f f' p n i); auto. apply HC; auto.
  - intros x n En. destruct (@refine_body A kid sf rf nl clean f f' x n D1 E En) as [n' [E1 [E2 E3]]].
    exists n'. split; auto. split; auto. intro H. apply E3. intros [H1 H2]. apply H. split; auto. apply HC; auto.
  - intros r x ->. rewrite (@refine_other A kid sf (Some r) nl clean f f' x r D1 E).
    + intuition.
    + intro H. apply (D2 r r); auto.
    + intro H. apply (D1 r r); auto.
  - intros g x H1 H2 H3. pose proof (@refine_other A kid sf rf nl clean f f' x g D1 E H1 H3) as M.
    destruct (marked_at f' x g), (marked_at f x g); auto.
    + destruct M as [M _]. destruct (M eq_refl); discriminate.
    + apply M. split; auto. intros [_ [H _]]. auto.
Qed.
Print Assumptions C11_refine.

(** refine raises no exception on a forest of regular trees *)
Theorem C11_refine_total : forall A kid sf rf nl clean (f : forest A),
  (forall p n, fget f p = Some n -> m_regular (n_meta n) = true) ->
  exists f', refine kid sf rf nl clean f = Ok f'.
Proof. intros. apply refine_total; auto. Qed.
Print Assumptions C11_refine_total.

(** refining a labelled submesh in place (no new label): the submesh afterwards,
    and its leaves *)
Theorem C11_refine_in_place : forall A kid s rf clean (f f' : forest A),
  distinct rf (Some s) ->
  (forall p n, selected (base f (Some s)) (Some s) rf p -> fget f p = Some n -> 0 < length (n_slots n)) ->
  refine kid (Some s) rf None clean f = Ok f' ->
  let f1 := root_subtrees s f in
  rooted f' s /\
  (forall x, marked_at f' x s = true <->
     marked_at f1 x s = true \/
     exists p i, selected f1 (Some s) rf p /\ x = p ++ [i] /\ present f' x = true) /\
  (forall x, sub_leaf f' (Some s) x <->
     (sub_leaf f1 (Some s) x /\ ~ selected f1 (Some s) rf x) \/
     exists p i, selected f1 (Some s) rf p /\ x = p ++ [i] /\ present f' x = true).
Proof.
  intros A kid s rf clean f f' D HK E f1.
  assert (D1 : distinct rf None) by (intros a b _ H; discriminate).
  assert (D3 : distinct (Some s) None) by (intros a b _ H; discriminate).
  assert (FR : fresh f None) by (intros l p H; discriminate).
  split; [|split].
  - exact (@refine_rooted A kid (Some s) rf None clean f f' D1 D D3 FR E).
  - intro x. rewrite <- in_sub_some. rewrite (@refine_sub A kid (Some s) rf None clean f f' D1 D D3 FR E x).
    unfold refined. rewrite in_sub_some. reflexivity.
  - exact (@refine_sub_leaf A kid (Some s) rf None clean f f' D1 D D3 FR HK E).
Qed.
Print Assumptions C11_refine_in_place.

(** ** C10: a new label *)
Theorem C10_refine_new_label : forall A kid sf rf l clean (f f' : forest A),
  distinct rf (Some l) -> distinct rf sf -> distinct sf (Some l) -> fresh f (Some l) ->
  (forall p n, selected (base f sf) sf rf p -> fget f p = Some n -> 0 < length (n_slots n)) ->
  refine kid sf rf (Some l) clean f = Ok f' ->
  (* the new submesh is rooted and consists of the old one and the children of
     its selected leaves *)
  rooted f' l /\ subtrees_rooted (Some l) f' = true /\
  (forall x, marked_at f' x l = true <->
     in_sub (base f sf) sf x \/
     exists p i, selected (base f sf) sf rf p /\ x = p ++ [i] /\ present f' x = true) /\
  (forall x, sub_leaf f' (Some l) x <->
     (sub_leaf (base f sf) sf x /\ ~ selected (base f sf) sf rf x) \/
     exists p i, selected (base f sf) sf rf p /\ x = p ++ [i] /\ present f' x = true) /\
  (* the old submesh keeps its members *)
  (forall s x, sf = Some s -> marked_at f' x s = marked_at (root_subtrees s f) x s) /\
  is_contained_in f' (Some l) sf = true.
Proof.
  intros A kid sf rf l clean f f' D1 D2 D3 FR HK E.
  pose proof (@refine_rooted A kid sf rf (Some l) clean f f' D1 D2 D3 FR E) as R. cbn [lab_of submesh_rooted] in R.
  pose proof (@refine_sub A kid sf rf (Some l) clean f f' D1 D2 D3 FR E) as S. cbn [lab_of] in S.
  split; [exact R|]. split; [apply subtrees_rooted_iff; exact R|]. split; [|split; [|split]].
  - intro x. rewrite <- in_sub_some. apply S.
  - exact (@refine_sub_leaf A kid sf rf (Some l) clean f f' D1 D2 D3 FR HK E).
  - intros s x ->. apply (@refine_old A kid s rf l clean f f' x); auto.
    intros ->. apply (D2 s s); auto.
  - unfold is_contained_in. destruct (match sf with Some r => r =? l | None => false end); auto.
    apply forallb_forall. intros [x n] Hx. cbn [fst snd].
    assert (Hl : sub_leaf f' (Some l) x /\ fget f' x = Some n).
    { apply in_fget_leaves in Hx. split; [exists n|]; tauto. }
    destruct Hl as [Hl En]. destruct (is_marked n sf) eqn:Em; auto.
    destruct (get_parent_flag f' x sf) as [a|] eqn:Eg; auto. exfalso.
    unfold get_parent_flag in Eg. pose proof (find_none _ _ Eg) as F. cbv beta in F.
    pose proof (proj1 (S x) (sub_leaf_in _ _ _ Hl)) as HS.
    destruct sf as [s|].
    + assert (Hold := fun x => @refine_old A kid s rf l clean f f' x D1 (fun H => D2 s s H eq_refl eq_refl) (D3 s l eq_refl eq_refl) E).
      destruct HS as [HS|[p [i [Hs [-> _]]]]].
      * apply in_sub_some in HS. rewrite <- (Hold x) in HS.
        rewrite (is_marked_at _ _ s En) in Em. congruence.
      * assert (Hp : p <> []) by (intros ->; destruct Hs as [m [Hm _]]; discriminate).
        specialize (F p). assert (In p (ancestors (p ++ [i]))) by (apply in_ancestors; split; auto; exists i, []; auto).
        specialize (F H). apply selected_leaf, sub_leaf_in, in_sub_some in Hs. rewrite <- (Hold p) in Hs.
        unfold marked_at in Hs. destruct (fget f' p); [congruence|discriminate].
    + apply sub_leaf_in, in_sub_some in Hl. unfold marked_at in Hl. rewrite En in Hl.
      unfold is_marked in *. destruct (m_flags (n_meta n)); [discriminate|discriminate].
Qed.
Print Assumptions C10_refine_new_label.

(** ** C09: uniform refinement *)
Theorem C09_refine_uniform : forall A kid k clean (f f' : forest A),
  0 < k -> uniform k f -> refine kid None None None clean f = Ok f' ->
  uniform k f' /\
  (* the leaves afterwards are exactly the children of the former leaves *)
  (forall x, sub_leaf f' None x <-> exists p i, sub_leaf f None p /\ i < k /\ x = p ++ [i]) /\
  (* and nothing else is new *)
  (forall x, present f' x = true <-> present f x = true \/ sub_leaf f' None x) /\
  (forall x n, fget f x = Some n -> exists n', fget f' x = Some n' /\ body n' = body n /\
     (~ sub_leaf f None x -> core n' = core n) /\ forall g, has_label g n' = has_label g n) /\
  (forall md, length (fget_leaves f' None None md) = length (fget_leaves f None None md) * k).
Proof.
  intros A kid k clean f f' Hk HU E.
  assert (D : distinct None None) by (intros a b H; discriminate).
  pose proof (@uniform_leaves A kid k clean f f' Hk HU E) as HL.
  split; [eapply uniform_refine; eauto|]. split; [exact HL|]. split; [|split].
  - intro x. rewrite (@refine_present A kid None None None clean f f' x D E). cbn [base]. split.
    + intros [H|[p [n [i [H1 [H2 [H3 [H4 ->]]]]]]]]; auto. right. apply HL. exists p, i.
      destruct (HU p n H2) as [_ U]. split; [eapply selected_leaf; eauto|]. split; [congruence|auto].
    + intros [H|H]; auto. right. apply HL in H. destruct H as [p [i [[n [En [H1 Ln]]] [Hi ->]]]].
      exists p, n, i. destruct (HU p n En) as [_ U]. split; [exists n; split; [auto|split; [split; auto|exact I]]|].
      split; auto. split; [rewrite has_children_false; auto|]. split; [congruence|auto].
  - intros x n En. destruct (@refine_body A kid None None None clean f f' x n D E En) as [n' [E1 [E2 E3]]].
    exists n'. split; auto. split; auto. split.
    + intro H. apply E3. intros [H1 _]. apply H. eapply selected_leaf; eauto.
    + intro g. pose proof (@refine_other A kid None None None clean f f' x g D E) as M.
      unfold marked_at in M. rewrite En, E1 in M. rewrite !is_marked_some in M.
      destruct (has_label g n'), (has_label g n); auto.
      * destruct M as [M _]; try discriminate. destruct (M eq_refl); discriminate.
      * apply M; try discriminate. split; auto. intros [_ [H _]]; discriminate.
  - intro md. pose proof (@uniform_perm A kid k clean f f' md Hk HU E) as P. apply Permutation_length in P.
    rewrite map_length in P. rewrite P.
    assert (G : forall l : list path, length (flat_map (fun p => map (fun i => p ++ [i]) (seq 0 k)) l) = length l * k).
    { induction l as [|p l IH]; [reflexivity|]. cbn [flat_map]. rewrite app_length. 
      etransitivity; [apply f_equal; exact IH|].
      rewrite map_length, seq_length. reflexivity. }
    etransitivity; [apply G|]. rewrite map_length; auto.
Qed.
Print Assumptions C09_refine_uniform.

Fixpoint refine_times {A} (kid : nat -> nat -> A -> A) (j : nat) (f : forest A) : res (forest A) :=
  match j with 0 => Ok f | S j' => bind (refine kid None None None true f) (refine_times kid j') end.
Theorem C09_refine_times : forall A kid k j (f : forest A),
  0 < k -> uniform k f ->
  exists f', refine_times kid j f = Ok f' /\ uniform k f' /\
    forall md, length (fget_leaves f' None None md) = length (fget_leaves f None None md) * k ^ j.
Proof.
  intros A kid k j. induction j as [|j IH]; intros f Hk HU; simpl.
  - exists f. split; auto. split; auto. intro; lia.
  - destruct (@refine_total A kid None None None true f) as [f1 E1]; [intros p n En; apply (HU p n En)|].
    rewrite E1. simpl. destruct (C09_refine_uniform _ _ _ _ _ _ Hk HU E1) as [U1 [_ [_ [_ L1]]]].
    destruct (IH f1 Hk U1) as [f' [E' [U' L']]]. exists f'. split; auto. split; auto.
    intro md. etransitivity; [apply L'|]. etransitivity; [apply f_equal2; [apply L1|reflexivity]|].
    rewrite <- Nat.mul_assoc. reflexivity.
Qed.
Print Assumptions C09_refine_times.

(** ** Concrete, non-trivial cases *)
Lemma ex_f_uniform : uniform 2 ex_f.
Proof.
  intros p n En. assert (H : In (p, n) (ftraverse ex_f None DepthFirst)).
  { apply in_ftraverse. split; auto. exact I. }
  revert H. clear. intro H. cbv in H. repeat (destruct H as [H|H]; [injection H as <- <-; split; reflexivity|]). destruct H.
Qed.
Example C09_example : exists f', refine ukid None None None true ex_f = Ok f' /\
  map fst (fget_leaves ex_f None None DepthFirst) = [[0;0];[0;1];[1;0;0];[1;0;1;0];[1;0;1;1];[1;1]] /\
  length (fget_leaves f' None None DepthFirst) = 12.
Proof. eexists. split; [vm_compute; reflexivity|]. vm_compute. auto. Qed.
(** submesh 1 = closure of [1;0;1;0]; refine its leaves labelled 2 into submesh 3 *)
Definition ex_r : forest unit := fupd [1;0;0] (mark_here 2) ex_f.
Example C10_example : exists f', refine ukid (Some 1) (Some 2) (Some 3) true ex_r = Ok f' /\
  fresh ex_r (Some 3) /\
  map fst (fget_leaves (base ex_r (Some 1)) (Some 2) (Some 1) DepthFirst) = [[1;0;0];[1;1]] /\
  map fst (fget_leaves f' None (Some 3) DepthFirst) =
    [[0];[1;0;0;0];[1;0;0;1];[1;0;1;0];[1;0;1;1];[1;1;0];[1;1;1]] /\
  map fst (ftraverse f' (Some 2) DepthFirst) = [].
Proof.
  eexists. split; [vm_compute; reflexivity|]. split.
  - intros l p E. injection E as <-. unfold marked_at. destruct (fget ex_r p) as [n|] eqn:En; auto.
    assert (H : In (p, n) (ftraverse ex_r None DepthFirst)) by (apply in_ftraverse; split; [auto|exact I]).
    clear En. cbv in H. repeat (destruct H as [H|H]; [injection H as <- <-; reflexivity|]). destruct H.
  - vm_compute. auto.
Qed.

(** Numbering, torn and continuous sharing *)
From Coq Require Import List Arith Bool Lia.
From Verif Require Import Tree TreeFacts SpecForest Forest Geom Fem Dof SpecDof DofFacts.
Import ListNotations.
Open Scope nat_scope.

Definition keeps' (s s' : dofs) := forall p k d, slot s p k = Some d -> slot s' p k = Some d.
Definition base_inv (n : nat) (s : dofs) : Prop :=
  wf n s /\ (forall d, d < dcount s <-> exists p k, slot s p k = Some d).
Lemma base_numbered n s : base_inv n s -> numbered s.
Proof.
  intros [_ B] d. rewrite B. split; intros [p [k H]]; exists p, k; apply slot_dof; auto.
Qed.
Lemma base_empty n : base_inv n no_dofs.
Proof. split; [intros p l H; discriminate|]. cbn. intro d. split; [lia|]. intros [p [k H]]. discriminate. Qed.

(** what filling a cell does *)
Definition fill_ok (n : nat) (p : path) (s s' : dofs) : Prop :=
  wf n s' /\ dcount s <= dcount s' /\
  (forall q k, q <> p -> slot s' q k = slot s q k) /\
  (forall k d, slot s p k = Some d -> slot s' p k = Some d) /\
  (forall k, k < n -> slot s p k = None -> exists d, slot s' p k = Some d /\ dcount s <= d < dcount s') /\
  (forall d, dcount s <= d < dcount s' -> exists k, k < n /\ slot s p k = None /\ slot s' p k = Some d) /\
  (forall k j d, slot s p k = None -> slot s p j = None -> slot s' p k = Some d -> slot s' p j = Some d -> k = j).
Lemma fill_keeps n p s s' : fill_ok n p s s' -> keeps' s s'.
Proof.
  intros [_ [_ [A [B _]]]] q k d H. destruct (path_dec q p) as [->|N]; auto. rewrite A; auto.
Qed.
Lemma fill_complete n p s s' k : fill_ok n p s s' -> k < n -> slot s' p k <> None.
Proof.
  intros [_ [_ [_ [B [C _]]]]] L. destruct (slot s p k) eqn:E; [erewrite B by eauto; discriminate|].
  destruct (C k L E) as [d [-> _]]. discriminate.
Qed.
(** a slot after filling is an old one or a new one *)
Lemma fill_cases n p s s' q k d : base_inv n s -> fill_ok n p s s' -> slot s' q k = Some d ->
  slot s q k = Some d /\ d < dcount s \/ q = p /\ k < n /\ slot s p k = None /\ dcount s <= d < dcount s'.
Proof.
  intros [W B] [W' [_ [A1 [A2 [A3 _]]]]] E.
  assert (R : slot s q k = Some d -> slot s q k = Some d /\ d < dcount s) by (intro H; split; auto; apply B; eauto).
  destruct (path_dec q p) as [->|N]; [|left; apply R; rewrite <- A1; auto].
  destruct (slot s p k) as [d'|] eqn:F.
  - left. pose proof (A2 k d' F). assert (d = d') by congruence. subst. auto.
  - right. assert (L : k < n) by (eapply slot_bound; eauto). destruct (A3 k L F) as [d' [G1 G2]].
    assert (d = d') by congruence. subst. auto.
Qed.
Lemma fill_base n p s s' : base_inv n s -> fill_ok n p s s' -> base_inv n s'.
Proof.
  intros I F. pose proof (fill_keeps _ _ _ _ F) as K. split; [apply F|]. intro d. split.
  - intro L. destruct (Nat.lt_ge_cases d (dcount s)) as [H|H].
    + apply I in H. destruct H as [q [k H]]. exists q, k. auto.
    + destruct F as [_ [_ [_ [_ [_ [F _]]]]]]. destruct (F d) as [k [_ [_ H1]]]; eauto.
  - intros [q [k H]]. destruct (fill_cases _ _ _ _ _ _ _ I F H) as [[_ L]|[_ [_ [_ L]]]]; [|lia].
    destruct F as [_ [F _]]. lia.
Qed.
(** copying: every new slot has the dof of an old one *)
Definition copies (n : nat) (R : path * nat -> path * nat -> Prop) (s s' : dofs) : Prop :=
  wf n s' /\ dcount s' = dcount s /\ keeps' s s' /\
  forall q k d, slot s' q k = Some d -> slot s q k = Some d \/
    slot s q k = None /\ exists p j, slot s p j = Some d /\ R (p, j) (q, k).
Lemma copies_base n R s s' : base_inv n s -> copies n R s s' -> base_inv n s'.
Proof.
  intros [W B] [W' [C [K H]]]. split; auto. intro d. rewrite C, B. split.
  - intros [p [k E]]. exists p, k. auto.
  - intros [p [k E]]. destruct (H p k d E) as [H'|[_ [p' [j [H' _]]]]]; eauto.
Qed.
Lemma copies_refl n (R : path * nat -> path * nat -> Prop) s : wf n s -> copies n R s s.
Proof. intro W. split; auto. split; auto. split; [intros p k d H; auto|]. auto. Qed.
Lemma copies_trans n (R : path * nat -> path * nat -> Prop) s s' s'' : (forall x y z, R x y -> R y z -> R x z) -> copies n R s s' -> copies n R s' s'' -> copies n R s s''.
Proof.
  intros T [_ [C1 [K1 H1]]] [W2 [C2 [K2 H2]]]. split; auto. split; [congruence|]. split; [intros p k d H; auto|].
  intros q k d E. destruct (H2 q k d E) as [H|[N [p [j [H Hr]]]]]; [auto|].
  right. split; [destruct (slot s q k) eqn:F; auto; pose proof (K1 _ _ _ F); congruence|].
  destruct (H1 p j d H) as [H'|[_ [p' [j' [H' Hr']]]]]; [eauto|]. exists p', j'. split; eauto.
Qed.
Lemma assign_copies n (R : path * nat -> path * nat -> Prop) s q kds : wf n s ->
  (forall k d, In (k, Some d) kds -> k < n -> slot s q k = None -> exists p j, slot s p j = Some d /\ R (p, j) (q, k)) ->
  copies n R s (assign_pos n q kds s).
Proof.
  intros W H. split; [apply assign_wf; auto|]. split; auto. split; [intros p k d E; apply assign_keeps; auto|].
  intros q' k d E. rewrite assign_slot in E by auto. destruct (slot s q' k) as [d'|] eqn:F; [left; auto|].
  right. split; auto. destruct (path_dec q' q) as [->|]; [|discriminate].
  destruct (Nat.ltb_spec k n) as [L|L]; [|discriminate]. apply given_in in E. eauto.
Qed.
Section children.
Context (n : nat) (inh : nat -> list (nat * nat)) (R : path * nat -> path * nat -> Prop).
Lemma children_copies {A} p (x : node A) s : wf n s ->
  (forall i j k c, nth_error (n_slots x) i = Some (Some c) -> In (j, k) (inh i) -> R (p, j) (p ++ [i], k)) ->
  copies n R s (share_children n inh p x s).
Proof.
  intros W HR. destruct (share_children_wf n inh p x s W) as [W' C]. split; auto. split; auto.
  assert (SL := fun q k => share_children_slot n inh p x s q k W).
  split; [intros q k d E; rewrite SL, E; auto|].
  intros q k d E. rewrite SL in E. destruct (slot s q k) as [d'|] eqn:F; [left; auto|]. right. split; auto.
  destruct (in_dec path_dec q _) as [H|H]; [|discriminate]. apply in_map_iff in H. destruct H as [[q' c] [E' H]]. cbn in E'. subst q'.
  apply in_kids_of in H. destruct H as [i [-> Hc]]. destruct (k <? n); [|discriminate].
  apply given_in in E. apply in_map_iff in E. destruct E as [[j k'] [E HI]]. cbn in E. injection E as -> E.
  assert (LS : last (p ++ [i]) 0 = i) by (clear; induction p as [|y [|? ?] IH]; auto).
  rewrite LS in HI. exists p, j. split; eauto.
Qed.
End children.

(** ** torn elements *)
Section torn.
Context (n : nat) (inh : nat -> list (nat * nat)) (nc : nat).
(** a dof of a cell goes to at most one slot of one child *)
Hypothesis uniq : forall i i' j k k', i < nc -> i' < nc -> In (j, k) (inh i) -> In (j, k') (inh i') -> i = i' /\ k = k'.
Inductive heir : path * nat -> path * nat -> Prop :=
| heir_refl x : heir x x
| heir_step x p j i k : heir x (p, j) -> i < nc -> In (j, k) (inh i) -> heir x (p ++ [i], k).
Lemma heir_prefix x y : heir x y -> prefix (fst x) (fst y).
Proof. induction 1; [apply prefix_refl|]. eapply prefix_trans; [exact IHheir|]. apply prefix_app. Qed.
Lemma heir_same x y : heir x y -> fst x = fst y -> x = y.
Proof.
  intros H E. inversion H as [|? p j i k H1 H2 H3]; subst; auto. exfalso. apply heir_prefix in H1. apply prefix_length in H1.
  cbn in *. rewrite E, app_length in H1. cbn in H1. lia.
Qed.
Lemma heir_trans x y z : heir x y -> heir y z -> heir x z.
Proof. intros H1 H2. induction H2; auto. econstructor; eauto. Qed.
Lemma heir_down p j i k y : i < nc -> In (j, k) (inh i) -> heir (p, j) y -> (p, j) = y \/ heir (p ++ [i], k) y.
Proof.
  intros Hi HI H. remember (p, j) as x eqn:E. revert p j i k Hi HI E.
  induction H as [x|x p' j' i' k' H IH Hi' HI']; intros p j i k Hi HI ->; [left; auto|]. right.
  destruct (IH p j i k Hi HI eq_refl) as [E|G].
  - injection E as -> ->. destruct (uniq i i' j' k k' Hi Hi' HI HI') as [-> ->]. apply heir_refl.
  - econstructor; eauto.
Qed.
Definition torn_inv (s : dofs) : Prop :=
  base_inv n s /\
  forall p k q j d, slot s p k = Some d -> slot s q j = Some d -> heir (p, k) (q, j) \/ heir (q, j) (p, k).
Lemma torn_empty : torn_inv no_dofs.
Proof. split; [apply base_empty|]. intros p k q j d H. discriminate. Qed.
Lemma torn_fill p s s' : torn_inv s -> fill_ok n p s s' -> torn_inv s'.
Proof.
  intros [B H] F. split; [eapply fill_base; eauto|]. intros p1 k1 p2 k2 d E1 E2.
  destruct (fill_cases _ _ _ _ _ _ _ B F E1) as [[A1 L1]|[-> [K1 [A1 L1]]]];
  destruct (fill_cases _ _ _ _ _ _ _ B F E2) as [[A2 L2]|[-> [K2 [A2 L2]]]]; try lia.
  - eapply H; eauto.
  - destruct F as [_ [_ [_ [_ [_ [_ F]]]]]]. rewrite (F k1 k2 d); auto. left. apply heir_refl.
Qed.
Lemma torn_share {A} p (x : node A) s : torn_inv s -> length (n_slots x) <= nc -> torn_inv (share_children n inh p x s).
Proof.
  intros [B H] L.
  assert (C : copies n (fun y z => exists i, i < nc /\ fst z = fst y ++ [i] /\ In (snd y, snd z) (inh i)) s (share_children n inh p x s)).
  { apply children_copies; [apply B|]. intros i j k c Hc HI. exists i. cbn. split; auto.
    assert (i < length (n_slots x)) by (apply nth_error_Some; congruence). lia. }
  split; [eapply copies_base; eauto|]. destruct C as [_ [_ [_ C]]].
  assert (K : forall p1 k1 p2 k2 d, slot (share_children n inh p x s) p1 k1 = Some d -> slot s p2 k2 = Some d ->
     heir (p1, k1) (p2, k2) \/ heir (p2, k2) (p1, k1)).
  { intros p1 k1 p2 k2 d E1 E2. destruct (C p1 k1 d E1) as [E|[_ [q [j [E [i [Hi [F HI]]]]]]]]; [eapply H; eauto|].
    cbn in F, HI. subst p1. destruct (H q j p2 k2 d E E2) as [G|G].
    - destruct (heir_down q j i k1 _ Hi HI G) as [<-|G']; [right; econstructor; eauto; apply heir_refl|auto].
    - right. econstructor; eauto. }
  intros p1 k1 p2 k2 d E1 E2. destruct (C p2 k2 d E2) as [E|[_ [q [j [E [i [Hi [F HI]]]]]]]]; [eapply K; eauto|].
  cbn in F, HI. subst p2. destruct (K p1 k1 q j d E1 E) as [G|G].
  - left. econstructor; eauto.
  - destruct (heir_down q j i k2 _ Hi HI G) as [<-|G']; [left; econstructor; eauto; apply heir_refl|auto].
Qed.
End torn.

(** ** continuous elements: the dofs are the classes of an equivalence *)
Section classes.
Context (n : nat) (same : path * nat -> path * nat -> Prop).
Hypothesis same_refl : forall x, same x x.
Hypothesis same_sym : forall x y, same x y -> same y x.
Hypothesis same_trans : forall x y z, same x y -> same y z -> same x z.
(** no two slots of one cell are the same point *)
Definition classes (s : dofs) : Prop :=
  forall p k q j d d', slot s p k = Some d -> slot s q j = Some d' -> (d = d' <-> same (p, k) (q, j)).
Lemma classes_copies s s' : classes s -> copies n same s s' -> classes s'.
Proof.
  intros H [_ [_ [_ C]]] p k q j d d' E1 E2.
  assert (S1 : exists p1 k1, slot s p1 k1 = Some d /\ same (p1, k1) (p, k)).
  { destruct (C p k d E1) as [F|[_ [p1 [k1 [F G]]]]]; eauto. }
  assert (S2 : exists p1 k1, slot s p1 k1 = Some d' /\ same (p1, k1) (q, j)).
  { destruct (C q j d' E2) as [F|[_ [p1 [k1 [F G]]]]]; eauto. }
  destruct S1 as [p1 [k1 [F1 G1]]]. destruct S2 as [p2 [k2 [F2 G2]]].
  rewrite (H p1 k1 p2 k2 d d' F1 F2). split; intro X; eauto.
Qed.
Lemma classes_fill p s s' : base_inv n s -> classes s -> fill_ok n p s s' ->
  (forall k j, k < n -> j < n -> same (p, k) (p, j) -> k = j) ->
  (forall k q j d, k < n -> slot s q j = Some d -> same (q, j) (p, k) -> slot s p k <> None) ->
  classes s'.
Proof.
  intros B H F I C p1 k1 p2 k2 d d' E1 E2.
  destruct (fill_cases _ _ _ _ _ _ _ B F E1) as [[A1 L1]|[-> [K1 [A1 L1]]]];
  destruct (fill_cases _ _ _ _ _ _ _ B F E2) as [[A2 L2]|[-> [K2 [A2 L2]]]].
  - eapply H; eauto.
  - split; [lia|]. intro X. exfalso. eapply C; eauto.
  - split; [lia|]. intro X. exfalso. eapply C; eauto.
  - split.
    + intros <-. destruct F as [_ [_ [_ [_ [_ [_ F]]]]]]. rewrite (F k1 k2 d); auto.
    + intro X. rewrite (I k1 k2) in E1 by auto. congruence.
Qed.
End classes.

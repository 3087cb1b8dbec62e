(** Slots under the operations of the dof handler *)
From Coq Require Import List Arith Bool Lia.
From Verif Require Import Tree TreeFacts Forest Geom Fem Dof SpecDof.
Import ListNotations.
Open Scope nat_scope.

Definition slot (s : dofs) (p : path) (k : nat) : option nat :=
  match gd s p with Some l => match nth_error l k with Some o => o | None => None end | None => None end.
Lemma slot_dof s p k d : slot s p k = Some d <-> dof_at s p k d.
Proof.
  unfold slot, dof_at. split.
  - destruct (gd s p) as [l|]; [|discriminate]. destruct (nth_error l k) as [o|] eqn:E; [|discriminate]. intros ->. eauto.
  - intros [l [-> ->]]. auto.
Qed.

Section n.
Variable n : nat.
(** every entry has [n] slots *)
Definition wf (s : dofs) : Prop := forall p l, gd s p = Some l -> length l = n.
Lemma entry_len s p : wf s -> length (entry n s p) = n.
Proof. intro W. unfold entry. destruct (gd s p) eqn:E; [eapply W; eauto|apply repeat_length]. Qed.
Lemma nth_repeat_none k m : nth k (repeat (@None nat) m) None = None.
Proof. revert k. induction m; destruct k; cbn; auto. Qed.
Lemma entry_nth s p k : nth k (entry n s p) None = slot s p k.
Proof.
  unfold entry, slot. destruct (gd s p) as [l|]; [|apply nth_repeat_none].
  destruct (nth_error l k) eqn:E; [apply nth_error_nth; auto|apply nth_overflow; apply nth_error_None; auto].
Qed.
Lemma entry_nth_error s p k : wf s -> k < n -> nth_error (entry n s p) k = Some (slot s p k).
Proof.
  intros W L. rewrite <- entry_nth. apply nth_error_nth'. rewrite entry_len; auto.
Qed.
Lemma slot_bound s p k d : wf s -> slot s p k = Some d -> k < n.
Proof.
  unfold slot. intros W. destruct (gd s p) as [l|] eqn:E; [|discriminate]. destruct (nth_error l k) eqn:F; [|discriminate].
  intros _. rewrite <- (W p l E). apply nth_error_Some. congruence.
Qed.
Lemma slot_store s p l q k : slot (store p l s) q k = if path_dec q p then match nth_error l k with Some o => o | None => None end else slot s q k.
Proof. unfold slot, store. cbn [gd]. destruct (path_dec q p); auto. Qed.
Lemma wf_store s p l : wf s -> length l = n -> wf (store p l s).
Proof. intros W L q l' E. cbn in E. destruct (path_dec q p); [congruence|eapply W; eauto]. Qed.
Lemma slot_touch s p q k : wf s -> slot (store p (entry n s p) s) q k = slot s q k.
Proof.
  intro W. rewrite slot_store. destruct (path_dec q p) as [->|]; auto.
  destruct (Nat.lt_ge_cases k n) as [L|L]; [rewrite entry_nth_error; auto|].
  replace (nth_error (entry n s p) k) with (@None (option nat)) by (symmetry; apply nth_error_None; rewrite entry_len; auto).
  destruct (slot s p k) eqn:E; auto. apply slot_bound in E; auto. lia.
Qed.

(** the value written by a list of assignments *)
Definition given (kds : list (nat * option nat)) (k : nat) : option nat :=
  fold_left (fun (o : option nat) (kd : nat * option nat) => match o with Some _ => o | None => if fst kd =? k then snd kd else None end) kds None.
Lemma given_some kds k d : fold_left (fun (o : option nat) (kd : nat * option nat) => match o with Some _ => o | None => if fst kd =? k then snd kd else None end) kds (Some d) = Some d.
Proof. induction kds; cbn; auto. Qed.
Lemma given_cons k' o kds k : given ((k', o) :: kds) k = match (if k' =? k then o else None) with Some d => Some d | None => given kds k end.
Proof. unfold given. cbn [fold_left fst snd]. destruct (if k' =? k then o else None); [apply given_some|auto]. Qed.
Lemma given_in kds k d : given kds k = Some d -> In (k, Some d) kds.
Proof.
  induction kds as [|[k' o] kds IH]; [discriminate|]. rewrite given_cons. intro H.
  destruct (Nat.eqb_spec k' k) as [->|]; [|right; auto]. destruct o; [left; congruence|right; auto].
Qed.
Lemma given_ex kds k d : In (k, Some d) kds -> exists d', given kds k = Some d'.
Proof.
  induction kds as [|[k' o] kds IH]; [contradiction|]. rewrite given_cons. intros [H|H].
  - injection H as -> ->. rewrite Nat.eqb_refl. eauto.
  - destruct (if k' =? k then o else None); eauto.
Qed.
Lemma puts_len kds : forall l, length (fold_left put kds l) = length l.
Proof.
  induction kds as [|kd kds IH]; intro l; cbn [fold_left]; auto. rewrite IH. unfold put.
  destruct (nth_error l (fst kd)) as [[?|]|]; auto. apply set_nth_length.
Qed.
Lemma puts_nth kds : forall l k o, nth_error l k = Some o ->
  nth_error (fold_left put kds l) k = Some (match o with Some d => Some d | None => given kds k end).
Proof.
  induction kds as [|[k' o'] kds IH]; intros l k o E; cbn [fold_left].
  - destruct o; auto.
  - rewrite given_cons. unfold put at 2. cbn [fst snd].
    destruct (Nat.eqb_spec k' k) as [->|N].
    + rewrite E. destruct o as [d|]; [apply (IH l k (Some d) E)|].
      assert (L : k < length l) by (apply nth_error_Some; congruence).
      rewrite (IH _ k o'); [destruct o'; auto|]. apply nth_set_nth_eq. auto.
    + destruct (nth_error l k') as [[d|]|] eqn:E'; try (apply (IH l k o E)).
      apply (IH _ k o). rewrite nth_set_nth_neq; auto.
Qed.
Lemma assign_slot s p kds q k : wf s ->
  slot (assign_pos n p kds s) q k =
  match slot s q k with Some d => Some d | None => if path_dec q p then (if k <? n then given kds k else None) else None end.
Proof.
  intro W. unfold assign_pos. rewrite slot_store. destruct (path_dec q p) as [->|]; [|destruct (slot s q k); auto].
  destruct (Nat.ltb_spec k n) as [L|L].
  - rewrite (puts_nth kds _ k _ (entry_nth_error s p k W L)). destruct (slot s p k); auto.
  - replace (nth_error (fold_left put kds (entry n s p)) k) with (@None (option nat)).
    + destruct (slot s p k) eqn:E; auto. apply slot_bound in E; auto. lia.
    + symmetry. apply nth_error_None. rewrite puts_len, entry_len; auto.
Qed.
Lemma assign_wf s p kds : wf s -> wf (assign_pos n p kds s).
Proof. intro W. apply wf_store; auto. rewrite puts_len. apply entry_len; auto. Qed.
Lemma assign_count s p kds : dcount (assign_pos n p kds s) = dcount s.
Proof. reflexivity. Qed.
Lemma assign_keeps s p kds q k d : wf s -> slot s q k = Some d -> slot (assign_pos n p kds s) q k = Some d.
Proof. intros W E. rewrite assign_slot, E; auto. Qed.

(** fill *)
Lemma fill_spec : forall l c l' c', fill_list c l = (l', c') ->
  length l' = length l /\ c <= c' /\
  (forall k d, nth_error l k = Some (Some d) -> nth_error l' k = Some (Some d)) /\
  (forall k, nth_error l k = Some None -> exists d, nth_error l' k = Some (Some d) /\ c <= d < c') /\
  (forall d, c <= d < c' -> exists k, nth_error l k = Some None /\ nth_error l' k = Some (Some d)) /\
  (forall k j d, nth_error l k = Some None -> nth_error l j = Some None ->
     nth_error l' k = Some (Some d) -> nth_error l' j = Some (Some d) -> k = j).
Proof.
  induction l as [|[d0|] l IH]; intros c l' c' E; cbn in E.
  - injection E as <- <-. repeat split; auto; intros; try (destruct k; discriminate); lia.
  - destruct (fill_list c l) as [r x] eqn:F. injection E as <- <-. destruct (IH _ _ _ F) as [A1 [A2 [A3 [A4 [A5 A6]]]]].
    split; [cbn; auto|]. split; [auto|]. split; [|split; [|split]].
    + intros [|k] d; cbn; auto.
    + intros [|k]; cbn; [discriminate|auto].
    + intros d H. destruct (A5 d H) as [k Hk]. exists (S k). auto.
    + intros [|k] [|j] d; cbn; try discriminate. intros. f_equal. eauto.
  - destruct (fill_list (S c) l) as [r x] eqn:F. injection E as <- <-. destruct (IH _ _ _ F) as [A1 [A2 [A3 [A4 [A5 A6]]]]].
    split; [cbn; auto|]. split; [lia|]. split; [|split; [|split]].
    + intros [|k] d; cbn; [discriminate|auto].
    + intros [|k]; cbn; [intros _; exists c; split; auto; lia|]. intro H. destruct (A4 k H) as [d [H1 H2]]. exists d. split; auto. lia.
    + intros d H. destruct (Nat.eq_dec d c) as [->|]; [exists 0; auto|]. destruct (A5 d) as [k Hk]; [lia|]. exists (S k). auto.
    + assert (G : forall k d, nth_error l k = Some None -> nth_error r k = Some (Some d) -> d <> c).
      { intros k d H1 H2. destruct (A4 k H1) as [d' [H3 H4]]. rewrite H2 in H3. injection H3 as ->. lia. }
      intros [|k] [|j] d; cbn; auto.
      * intros _ H1 H2 H3. injection H2 as ->. exfalso. eapply G; eauto.
      * intros H1 _ H2 H3. injection H3 as ->. exfalso. eapply G; eauto.
      * intros. f_equal. eauto.
Qed.
Lemma fill_facts s p s' : wf s -> fill_plain n p s = s' ->
  wf s' /\ dcount s <= dcount s' /\
  (forall q k, q <> p -> slot s' q k = slot s q k) /\
  (forall k d, slot s p k = Some d -> slot s' p k = Some d) /\
  (forall k, k < n -> slot s p k = None -> exists d, slot s' p k = Some d /\ dcount s <= d < dcount s') /\
  (forall d, dcount s <= d < dcount s' -> exists k, k < n /\ slot s p k = None /\ slot s' p k = Some d) /\
  (forall k j d, slot s p k = None -> slot s p j = None -> slot s' p k = Some d -> slot s' p j = Some d -> k = j).
Proof.
  intros W <-. unfold fill_plain. destruct (fill_list (dcount s) (entry n s p)) as [l c] eqn:F.
  destruct (fill_spec _ _ _ _ F) as [A1 [A2 [A3 [A4 [A5 A6]]]]]. rewrite entry_len in A1 by auto.
  assert (S1 : forall q k, slot (mkDofs (gd (store p l s)) c) q k = slot (store p l s) q k) by reflexivity.
  assert (SP : forall k, slot (store p l s) p k = match nth_error l k with Some o => o | None => None end).
  { intro k. rewrite slot_store. destruct (path_dec p p); congruence. }
  assert (EN : forall k o, nth_error (entry n s p) k = Some o -> k < n /\ slot s p k = o).
  { intros k o E. assert (L : k < n) by (rewrite <- (entry_len s p W); apply nth_error_Some; congruence).
    rewrite entry_nth_error in E by auto. split; congruence. }
  assert (BD : forall k d, slot (store p l s) p k = Some d -> k < n).
  { intros k d E. rewrite SP in E. destruct (nth_error l k) eqn:G; [|discriminate]. rewrite <- A1. apply nth_error_Some. congruence. }
  split; [apply (wf_store s p l W A1)|]. split; [exact A2|]. cbn [dcount].
  split; [|split; [|split; [|split]]].
  - intros q k H. rewrite S1, slot_store. destruct (path_dec q p); congruence.
  - intros k d E. rewrite S1, SP. assert (L : k < n) by (eapply slot_bound; eauto).
    rewrite (A3 k d); auto. rewrite entry_nth_error by auto. congruence.
  - intros k L E. destruct (A4 k) as [d [H1 H2]]; [rewrite entry_nth_error by auto; congruence|].
    exists d. rewrite S1, SP, H1. auto.
  - intros d H. destruct (A5 d H) as [k [H1 H2]]. destruct (EN k _ H1) as [L E]. exists k. rewrite S1, SP, H2. auto.
  - intros k j d E1 E2 F1 F2. rewrite S1 in F1, F2.
    assert (L1 : k < n) by (eapply BD; eauto). assert (L2 : j < n) by (eapply BD; eauto).
    rewrite SP in F1, F2. destruct (nth_error l k) as [o|] eqn:G1; [|discriminate]. destruct (nth_error l j) as [o'|] eqn:G2; [|discriminate].
    subst. apply (A6 k j d); auto; rewrite entry_nth_error by auto; congruence.
Qed.

(** sharing with the children *)
Section share.
Context (inh : nat -> list (nat * nat)).
Lemma share_child_slot s p c q k : wf s -> c <> p ->
  slot (share_child n inh p s c) q k =
  match slot s q k with Some d => Some d | None =>
    if path_dec q c then (if k <? n then given (map (fun jk => (snd jk, slot s p (fst jk))) (inh (last c 0))) k else None) else None end.
Proof.
  intros W N. unfold share_child. rewrite assign_slot by auto.
  rewrite (map_ext (fun jk => (snd jk, nth (fst jk) (entry n s p) None)) (fun jk => (snd jk, slot s p (fst jk)))); auto.
  intros [j k']. cbn [fst snd]. rewrite entry_nth. auto.
Qed.
Lemma share_child_wf s p c : wf s -> wf (share_child n inh p s c).
Proof. apply assign_wf. Qed.
Lemma share_children_wf {A} p (x : node A) s : wf s -> wf (share_children n inh p x s) /\ dcount (share_children n inh p x s) = dcount s.
Proof.
  unfold share_children. revert s. induction (map fst (kids_of p x)) as [|c cs IH]; intros s W; cbn [fold_left]; auto.
  destruct (IH _ (share_child_wf s p c W)) as [A1 A2]. split; [exact A1|]. rewrite A2. reflexivity.
Qed.
Lemma share_children_slot {A} p (x : node A) s q k : wf s ->
  slot (share_children n inh p x s) q k =
  match slot s q k with Some d => Some d | None =>
    if in_dec path_dec q (map fst (kids_of p x))
    then (if k <? n then given (map (fun jk => (snd jk, slot s p (fst jk))) (inh (last q 0))) k else None) else None end.
Proof.
  unfold share_children.
  assert (NP : forall c, In c (map fst (kids_of p x)) -> c <> p).
  { intros c H. apply in_map_iff in H. destruct H as [[c' m] [<- H]]. apply in_kids_of in H. destruct H as [i [-> _]]. cbn.
    intro E. apply (f_equal (@length nat)) in E. rewrite app_length in E. cbn in E. lia. }
  assert (ND : NoDup (map fst (kids_of p x))).
  { unfold kids_of. rewrite map_map. cbn [fst]. rewrite <- (map_map fst (fun i => p ++ [i])). apply FinFun.Injective_map_NoDup; [|apply enum_kids_nodup].
    intros a b E. apply app_inv_head in E. congruence. }
  revert NP ND. generalize (map fst (kids_of p x)). intro cs.
  revert s. induction cs as [|c cs IH]; intros s NP ND W; cbn [fold_left].
  - destruct (slot s q k); auto.
  - inversion ND as [|? ? N1 N2]; subst. rewrite IH; [|intros c' H; apply NP; right; auto|auto|apply share_child_wf; auto].
    assert (PP : forall j, slot (share_child n inh p s c) p j = slot s p j).
    { intro j. rewrite share_child_slot by (auto; apply NP; left; auto). destruct (slot s p j); auto.
      destruct (path_dec p c) as [->|]; auto. exfalso. apply (NP c); [left|]; auto. }
    rewrite (map_ext (fun jk => (snd jk, slot (share_child n inh p s c) p (fst jk))) (fun jk => (snd jk, slot s p (fst jk)))) by (intros; f_equal; auto).
    rewrite share_child_slot by (auto; apply NP; left; auto).
    destruct (slot s q k) as [d|] eqn:E; auto.
    destruct (path_dec q c) as [->|Nq].
    + destruct (in_dec path_dec c cs) as [Hc|Hc]; [contradiction|].
      destruct (in_dec path_dec c (c :: cs)) as [Hc'|Hc']; [|exfalso; apply Hc'; left; auto].
      destruct (if k <? n then _ else None); auto.
    + destruct (in_dec path_dec q cs) as [Hc|Hc]; destruct (in_dec path_dec q (c :: cs)) as [Hc'|Hc']; auto.
      * exfalso. apply Hc'. right. auto.
      * exfalso. destruct Hc' as [->|]; [congruence|auto].
Qed.
End share.
End n.

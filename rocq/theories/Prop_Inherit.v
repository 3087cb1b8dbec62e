(** * C36: the dofs that children inherit (src/mesh.py RQuadCell, RInterval;
    src/fem.py share_dofs_with_children) *)
From Coq Require Import List Arith Bool Lia QArith Qabs Lqa Qring Qfield.
From Verif Require Import Tree Geom SpecGeom QuadGeomFacts Fem SpecFem ShapeFacts.
Import ListNotations.
Open Scope Q_scope.

Definition unit_square : quad := ((0, 0), (1, 0), (1, 1), (0, 1)).
(** dof [k] of child [i] and dof [j] of the cell are at the same point *)
Definition same_place1 (e : elem) (i j k : nat) : Prop :=
  exists x y, nth_error (reference_nodes1 e) j = Some x /\ nth_error (reference_nodes1 e) k = Some y /\
    x == imap (ikid i 2 (0, 1)) y.
Definition same_place2 (e : elem) (i j k : nat) : Prop :=
  exists p p', nth_error (reference_nodes2 e) j = Some p /\ nth_error (reference_nodes2 e) k = Some p' /\
    peq p (qmap (qchild i unit_square) (fst p') (snd p')).
(** boolean versions *)
Definition same1 (e : elem) (i j k : nat) : bool :=
  match nth_error (reference_nodes1 e) j, nth_error (reference_nodes1 e) k with
  | Some x, Some y => Qeq_bool x (imap (ikid i 2 (0, 1)) y) | _, _ => false end.
Definition same2 (e : elem) (i j k : nat) : bool :=
  match nth_error (reference_nodes2 e) j, nth_error (reference_nodes2 e) k with
  | Some p, Some p' => pclose p (qmap (qchild i unit_square) (fst p') (snd p')) | _, _ => false end.
Lemma same1_spec e i j k : same1 e i j k = true <-> same_place1 e i j k.
Proof.
  unfold same1, same_place1. split.
  - destruct (nth_error _ j) as [x|]; [|discriminate]. destruct (nth_error _ k) as [y|]; [|discriminate].
    intro H. apply Qeq_bool_iff in H. eauto.
  - intros [x [y [-> [-> H]]]]. apply Qeq_bool_iff. auto.
Qed.
Lemma same2_spec e i j k : same2 e i j k = true <-> same_place2 e i j k.
Proof.
  unfold same2, same_place2, pclose, peq. split.
  - destruct (nth_error _ j) as [p|]; [|discriminate]. destruct (nth_error _ k) as [p'|]; [|discriminate].
    intro H. apply andb_true_iff in H. rewrite !Qeq_bool_iff in H. eauto.
  - intros [p [p' [-> [-> H]]]]. apply andb_true_iff. rewrite !Qeq_bool_iff. auto.
Qed.
Definition pair_in (a : nat * nat) (l : list (nat * nat)) : bool := existsb (fun b => (fst a =? fst b) && (snd a =? snd b))%nat l.
Lemma pair_in_spec a l : pair_in a l = true <-> In a l.
Proof.
  unfold pair_in. rewrite existsb_exists. split.
  - intros [b [H E]]. apply andb_true_iff in E. rewrite !Nat.eqb_eq in E. destruct a, b. cbn in E. destruct E; subst. auto.
  - intro H. exists a. split; auto. rewrite !Nat.eqb_refl. auto.
Qed.
Lemma seq_all n (f : nat -> bool) : forallb f (seq 0 n) = true <-> forall i, (i < n)%nat -> f i = true.
Proof. rewrite forallb_forall. split; intros H i Hi; apply H; [apply in_seq; lia|apply in_seq in Hi; lia]. Qed.

(** Continuous elements: a child inherits exactly the dofs of the cell that are
    located at one of its nodes. *)
Theorem C36_continuous_1d e : torn e = false -> forall i j k, (i < 2)%nat ->
  (In (j, k) (inherited (ref1 e) i) <-> same_place1 e i j k).
Proof.
  intros T i j k Hi. rewrite <- same1_spec, <- pair_in_spec.
  assert (B : forall r, same1 e i j k = true -> (j < n_dofs D1 e)%nat /\ (k < n_dofs D1 e)%nat \/ r).
  { intros r H. left. unfold same1 in H. destruct (nth_error _ j) eqn:E1; [|discriminate]. destruct (nth_error _ k) eqn:E2; [|discriminate].
    assert (L : length (reference_nodes1 e) = n_dofs D1 e) by (destruct e; reflexivity). rewrite <- L.
    split; apply nth_error_Some; congruence. }
  destruct (Nat.lt_ge_cases j (n_dofs D1 e)) as [Lj|Lj]; [destruct (Nat.lt_ge_cases k (n_dofs D1 e)) as [Lk|Lk]|].
  - assert (A : forallb (fun i => forallb (fun j => forallb (fun k => Bool.eqb (pair_in (j, k) (inherited (ref1 e) i)) (same1 e i j k)) (seq 0 (n_dofs D1 e))) (seq 0 (n_dofs D1 e))) (seq 0 2) = true).
    { destruct e; try discriminate T; vm_compute; reflexivity. }
    rewrite seq_all in A. specialize (A i Hi). rewrite seq_all in A. specialize (A j Lj). rewrite seq_all in A. specialize (A k Lk).
    apply eqb_prop in A. rewrite A. tauto.
  - split; intro H; [|destruct (B False H); [lia|contradiction]]. exfalso. apply pair_in_spec in H.
    assert (A : forallb (fun i => forallb (fun a => (snd a <? n_dofs D1 e)%nat) (inherited (ref1 e) i)) (seq 0 2) = true) by (destruct e; vm_compute; reflexivity).
    rewrite seq_all in A. specialize (A i Hi). rewrite forallb_forall in A. specialize (A _ H). apply Nat.ltb_lt in A. cbn [fst snd] in A. lia.
  - split; intro H; [|destruct (B False H); [lia|contradiction]]. exfalso. apply pair_in_spec in H.
    assert (A : forallb (fun i => forallb (fun a => (fst a <? n_dofs D1 e)%nat) (inherited (ref1 e) i)) (seq 0 2) = true) by (destruct e; vm_compute; reflexivity).
    rewrite seq_all in A. specialize (A i Hi). rewrite forallb_forall in A. specialize (A _ H). apply Nat.ltb_lt in A. cbn [fst snd] in A. lia.
Qed.
Print Assumptions C36_continuous_1d.
Theorem C36_continuous_2d e : torn e = false -> forall i j k, (i < 4)%nat ->
  (In (j, k) (inherited (ref2 e) i) <-> same_place2 e i j k).
Proof.
  intros T i j k Hi. rewrite <- same2_spec, <- pair_in_spec.
  assert (B : forall r, same2 e i j k = true -> (j < n_dofs D2 e)%nat /\ (k < n_dofs D2 e)%nat \/ r).
  { intros r H. left. unfold same2 in H. destruct (nth_error _ j) eqn:E1; [|discriminate]. destruct (nth_error _ k) eqn:E2; [|discriminate].
    assert (L : length (reference_nodes2 e) = n_dofs D2 e) by (destruct e; reflexivity). rewrite <- L.
    split; apply nth_error_Some; congruence. }
  destruct (Nat.lt_ge_cases j (n_dofs D2 e)) as [Lj|Lj]; [destruct (Nat.lt_ge_cases k (n_dofs D2 e)) as [Lk|Lk]|].
  - assert (A : forallb (fun i => let inh := inherited (ref2 e) i in forallb (fun j => forallb (fun k => Bool.eqb (pair_in (j, k) inh) (same2 e i j k)) (seq 0 (n_dofs D2 e))) (seq 0 (n_dofs D2 e))) (seq 0 4) = true).
    { destruct e; try discriminate T; vm_compute; reflexivity. }
    rewrite seq_all in A. specialize (A i Hi). cbv zeta in A. rewrite seq_all in A. specialize (A j Lj). rewrite seq_all in A. specialize (A k Lk).
    apply eqb_prop in A. rewrite A. tauto.
  - split; intro H; [|destruct (B False H); [lia|contradiction]]. exfalso. apply pair_in_spec in H.
    assert (A : forallb (fun i => forallb (fun a => (snd a <? n_dofs D2 e)%nat) (inherited (ref2 e) i)) (seq 0 4) = true) by (destruct e; vm_compute; reflexivity).
    rewrite seq_all in A. specialize (A i Hi). rewrite forallb_forall in A. specialize (A _ H). apply Nat.ltb_lt in A. cbn [fst snd] in A. lia.
  - split; intro H; [|destruct (B False H); [lia|contradiction]]. exfalso. apply pair_in_spec in H.
    assert (A : forallb (fun i => forallb (fun a => (fst a <? n_dofs D2 e)%nat) (inherited (ref2 e) i)) (seq 0 4) = true) by (destruct e; vm_compute; reflexivity).
    rewrite seq_all in A. specialize (A i Hi). rewrite forallb_forall in A. specialize (A _ H). apply Nat.ltb_lt in A. cbn [fst snd] in A. lia.
Qed.
Print Assumptions C36_continuous_2d.

(** Torn elements: only dofs at the same point are inherited, every dof of the
    cell by at most one node of one child, and by some child if there is one at
    that point. *)
Definition torn_ok (n nc : nat) (inh : nat -> list (nat * nat)) (same : nat -> nat -> nat -> bool) : bool :=
  forallb (fun i => forallb (fun a => same i (fst a) (snd a)) (inh i)) (seq 0 nc) &&
  forallb (fun i => forallb (fun i' => forallb (fun a => forallb (fun a' => negb (fst a =? fst a')%nat || ((i =? i') && (snd a =? snd a'))%nat) (inh i')) (inh i)) (seq 0 nc)) (seq 0 nc) &&
  forallb (fun j => forallb (fun i => forallb (fun k => negb (same i j k) || existsb (fun i' => existsb (fun a => (fst a =? j)%nat) (inh i')) (seq 0 nc)) (seq 0 n)) (seq 0 nc)) (seq 0 n).
Lemma torn_ok_spec n nc inh same : torn_ok n nc inh same = true ->
  (forall i j k, (i < nc)%nat -> In (j, k) (inh i) -> same i j k = true) /\
  (forall i i' j k k', (i < nc)%nat -> (i' < nc)%nat -> In (j, k) (inh i) -> In (j, k') (inh i') -> i = i' /\ k = k') /\
  (forall i j k, (i < nc)%nat -> (j < n)%nat -> (k < n)%nat -> same i j k = true -> exists i' k', (i' < nc)%nat /\ In (j, k') (inh i')).
Proof.
  intro H. apply andb_true_iff in H. destruct H as [H H3]. apply andb_true_iff in H. destruct H as [H1 H2].
  rewrite seq_all in H1, H2, H3. split; [|split].
  - intros i j k Hi HI. specialize (H1 i Hi). rewrite forallb_forall in H1. apply (H1 (j, k) HI).
  - intros i i' j k k' Hi Hi' HI HI'. specialize (H2 i Hi). rewrite seq_all in H2. specialize (H2 i' Hi').
    rewrite forallb_forall in H2. specialize (H2 _ HI). rewrite forallb_forall in H2. specialize (H2 _ HI'). cbn [fst snd] in H2.
    rewrite Nat.eqb_refl in H2. cbn in H2. apply andb_true_iff in H2. rewrite !Nat.eqb_eq in H2. auto.
  - intros i j k Hi Hj Hk HS. specialize (H3 j Hj). rewrite seq_all in H3. specialize (H3 i Hi). rewrite seq_all in H3. specialize (H3 k Hk).
    rewrite HS in H3. cbn in H3. apply existsb_exists in H3. destruct H3 as [i' [Hi' H3]]. apply existsb_exists in H3. destruct H3 as [[j' k'] [HI E]].
    apply Nat.eqb_eq in E. cbn in E. subst j'. exists i', k'. split; auto. apply in_seq in Hi'. lia.
Qed.
Theorem C36_torn_1d e : torn e = true ->
  (forall i j k, (i < 2)%nat -> In (j, k) (inherited (ref1 e) i) -> same_place1 e i j k) /\
  (forall i i' j k k', (i < 2)%nat -> (i' < 2)%nat -> In (j, k) (inherited (ref1 e) i) -> In (j, k') (inherited (ref1 e) i') -> i = i' /\ k = k') /\
  (forall i j k, (i < 2)%nat -> same_place1 e i j k -> exists i' k', (i' < 2)%nat /\ In (j, k') (inherited (ref1 e) i')).
Proof.
  intro T. assert (A : torn_ok (n_dofs D1 e) 2 (inherited (ref1 e)) (same1 e) = true) by (destruct e; try discriminate T; vm_compute; reflexivity).
  destruct (torn_ok_spec _ _ _ _ A) as [A1 [A2 A3]]. split; [|split; [exact A2|]].
  - intros i j k Hi H. apply same1_spec. auto.
  - intros i j k Hi H. pose proof H as [x [y [Hx [Hy _]]]]. apply same1_spec in H.
    assert (L : length (reference_nodes1 e) = n_dofs D1 e) by (destruct e; reflexivity).
    apply (A3 i j k Hi); auto; rewrite <- L; apply nth_error_Some; congruence.
Qed.
Print Assumptions C36_torn_1d.
Theorem C36_torn_2d e : torn e = true ->
  (forall i j k, (i < 4)%nat -> In (j, k) (inherited (ref2 e) i) -> same_place2 e i j k) /\
  (forall i i' j k k', (i < 4)%nat -> (i' < 4)%nat -> In (j, k) (inherited (ref2 e) i) -> In (j, k') (inherited (ref2 e) i') -> i = i' /\ k = k') /\
  (forall i j k, (i < 4)%nat -> same_place2 e i j k -> exists i' k', (i' < 4)%nat /\ In (j, k') (inherited (ref2 e) i')).
Proof.
  intro T. assert (A : torn_ok (n_dofs D2 e) 4 (inherited (ref2 e)) (same2 e) = true) by (destruct e; try discriminate T; vm_compute; reflexivity).
  destruct (torn_ok_spec _ _ _ _ A) as [A1 [A2 A3]]. split; [|split; [exact A2|]].
  - intros i j k Hi H. apply same2_spec. auto.
  - intros i j k Hi H. pose proof H as [x [y [Hx [Hy _]]]]. apply same2_spec in H.
    assert (L : length (reference_nodes2 e) = n_dofs D2 e) by (destruct e; reflexivity).
    apply (A3 i j k Hi); auto; rewrite <- L; apply nth_error_Some; congruence.
Qed.
Print Assumptions C36_torn_2d.
(** so on every cell of a mesh an inherited dof stays at its physical point *)
Theorem C36_physical_1d e d i j k : (i < 2)%nat -> In (j, k) (inherited (ref1 e) i) ->
  exists x y, nth_error (reference_nodes1 e) j = Some x /\ nth_error (reference_nodes1 e) k = Some y /\
    imap d x == imap (ikid i 2 d) y.
Proof.
  intros Hi H. assert (S : same_place1 e i j k).
  { destruct (torn e) eqn:T; [apply (C36_torn_1d e T)|apply (C36_continuous_1d e T)]; auto. }
  destruct S as [x [y [Hx [Hy E]]]]. exists x, y. split; [auto|]. split; [auto|].
  destruct i as [|[|i]]; [| |lia]; unfold imap, ikid in *; cbn [isplit isplit_loop nth fst snd] in *; rewrite E; unfold Qn; cbn; field.
Qed.
Print Assumptions C36_physical_1d.
Theorem C36_physical_2d e q i j k : (i < 4)%nat -> In (j, k) (inherited (ref2 e) i) ->
  exists p p', nth_error (reference_nodes2 e) j = Some p /\ nth_error (reference_nodes2 e) k = Some p' /\
    peq (qmap q (fst p) (snd p)) (qmap (qchild i q) (fst p') (snd p')).
Proof.
  intros Hi H. assert (S : same_place2 e i j k).
  { destruct (torn e) eqn:T; [apply (C36_torn_2d e T)|apply (C36_continuous_2d e T)]; auto. }
  destruct S as [p [p' [Hx [Hy [E1 E2]]]]]. exists p, p'. split; [auto|]. split; [auto|].
  destruct q as [[[[x0 y0] [x1 y1]] [x2 y2]] [x3 y3]].
  assert (PR : forall s t s' t' q, s == s' -> t == t' -> peq (qmap q s t) (qmap q s' t')).
  { intros s t s' t' [[[[? ?] [? ?]] [? ?]] [? ?]] A B. unfold peq, qmap. cbn [fst snd]. rewrite A, B. split; reflexivity. }
  destruct (PR _ _ _ _ ((x0, y0), (x1, y1), (x2, y2), (x3, y3)) E1 E2) as [F1 F2].
  unfold peq. rewrite F1, F2. clear - Hi.
  do 4 (destruct i as [|i]; [unfold qchild, unit_square; cbn; split; field|]). lia.
Qed.
Print Assumptions C36_physical_2d.
Example C36_case : inherited (ref2 Q1) 1 = [(1, 1)]%nat /\ inherited (ref1 Q2) 0 <> [] /\ length (inherited (ref2 Q2) 0) = 4%nat.
Proof. split; [|split]; vm_compute; [reflexivity|discriminate|reflexivity]. Qed.

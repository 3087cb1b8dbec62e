(** * The nodes of the continuous elements on the unit square (for C48-C50) *)
From Coq Require Import List Arith Bool Lia QArith Lqa.
From Verif Require Import Tree Forest SpecForest Geom SpecGeom Quad SpecQuad QuadNb Fem SpecFem Prop_Inherit Dof SpecDof Dof2 SpecDof2 SurfFacts.
Import ListNotations.
Open Scope nat_scope.

Definition node2 (e : elem) (k : nat) : pt := nth k (reference_nodes2 e) (0, 0)%Q.
Definition nd2 (e : elem) : nat := n_dofs D2 e.
Lemma nodes2_len e : length (reference_nodes2 e) = nd2 e.
Proof. destruct e; vm_compute; reflexivity. Qed.
Lemma nodes2_nth e k : k < nd2 e -> nth_error (reference_nodes2 e) k = Some (node2 e k).
Proof. intro L. unfold node2. apply nth_error_nth'. rewrite nodes2_len. auto. Qed.
Lemma nodes2_at e k x : nth_error (reference_nodes2 e) k = Some x -> k < nd2 e /\ x = node2 e k.
Proof.
  intro E. split; [rewrite <- nodes2_len; apply nth_error_Some; congruence|]. unfold node2. symmetry. apply nth_error_nth. auto.
Qed.
Definition unit_pb (x : pt) : bool := Qle_bool 0 (fst x) && Qle_bool (fst x) 1 && Qle_bool 0 (snd x) && Qle_bool (snd x) 1.
Lemma unit_pb_spec x : unit_pb x = true <-> unit_pt x.
Proof. unfold unit_pb, unit_pt. rewrite !andb_true_iff, !Qle_bool_iff. tauto. Qed.
Lemma nodes2_unit e k : unit_pt (node2 e k).
Proof.
  destruct (Nat.lt_ge_cases k (nd2 e)) as [L|L].
  - assert (A : forallb (fun k => unit_pb (node2 e k)) (seq 0 (nd2 e)) = true) by (destruct e; vm_compute; reflexivity).
    rewrite seq_all in A. apply unit_pb_spec. auto.
  - unfold node2. rewrite nth_overflow by (rewrite nodes2_len; auto). split; split; cbn; lra.
Qed.
Definition peqb (x y : pt) : bool := Qeq_bool (fst x) (fst y) && Qeq_bool (snd x) (snd y).
Lemma peqb_spec x y : peqb x y = true <-> peq x y.
Proof. unfold peqb, peq. rewrite andb_true_iff, !Qeq_bool_iff. tauto. Qed.
Lemma nodes2_inj e k j : torn e = false -> k < nd2 e -> j < nd2 e -> peq (node2 e k) (node2 e j) -> k = j.
Proof.
  intros T Lk Lj E.
  assert (A : forallb (fun k => forallb (fun j => negb (peqb (node2 e k) (node2 e j)) || (k =? j)) (seq 0 (nd2 e))) (seq 0 (nd2 e)) = true)
    by (destruct e; try discriminate T; vm_compute; reflexivity).
  rewrite seq_all in A. specialize (A k Lk). rewrite seq_all in A. specialize (A j Lj).
  apply peqb_spec in E. rewrite E in A. apply Nat.eqb_eq. auto.
Qed.
Lemma node2_corner e c : torn e = false -> c < 4 -> c < nd2 e /\ peq (node2 e c) (corner c).
Proof.
  intros T L. assert (N : 4 <= nd2 e) by (destruct e; try discriminate T; cbv; lia). split; [lia|].
  assert (A : forallb (fun c => peqb (node2 e c) (corner c)) (seq 0 4) = true) by (destruct e; try discriminate T; vm_compute; reflexivity).
  rewrite seq_all in A. apply peqb_spec. auto.
Qed.
Lemma corner_node2 e c k : torn e = false -> c < 4 -> k < nd2 e -> peq (node2 e k) (corner c) -> k = c.
Proof.
  intros T L Lk E. destruct (node2_corner e c T L) as [Lc E']. apply (nodes2_inj e); auto. eapply peq_t; [exact E|]. apply peq_s. auto.
Qed.
(** the slot of the node number [i] inside side [a] *)
Definition eslot (e : elem) (a i : nat) : nat := 4 * dpv e + a * dpe D2 e + i.
Lemma eslot_lt e a i : a < 4 -> i < dpe D2 e -> eslot e a i < nd2 e.
Proof. unfold eslot, nd2, n_dofs. intros L1 L2. nia. Qed.
Definition etime (e : elem) (i : nat) : Q := (Qn (i + 1) / Qn (dpe D2 e + 1))%Q.
Lemma node2_edge e a i : torn e = false -> a < 4 -> i < dpe D2 e -> peq (node2 e (eslot e a i)) (side_pt a (etime e i)).
Proof.
  intros T L1 L2.
  assert (A : forallb (fun a => forallb (fun i => peqb (node2 e (eslot e a i)) (side_pt a (etime e i))) (seq 0 (dpe D2 e))) (seq 0 4) = true)
    by (destruct e; try discriminate T; vm_compute; reflexivity).
  rewrite seq_all in A. specialize (A a L1). rewrite seq_all in A. apply peqb_spec. auto.
Qed.
Lemma etime_rev e i : torn e = false -> i < dpe D2 e -> (etime e (dpe D2 e - 1 - i) == 1 - etime e i /\ 0 < etime e i /\ etime e i < 1)%Q.
Proof.
  intros T L. destruct e; try discriminate T; cbn [dpe] in *; try lia; (destruct i as [|[|i]]; try lia); vm_compute; repeat split; reflexivity.
Qed.
(** what lies on a side *)
Definition sparam (a : nat) (x : pt) : Q :=
  match a with 0 => fst x | 1 => snd x | 2 => (1 - fst x)%Q | _ => (1 - snd x)%Q end.
Definition on_side (a : nat) (x : pt) : bool :=
  match a with 0 => Qeq_bool (snd x) 0 | 1 => Qeq_bool (fst x) 1 | 2 => Qeq_bool (snd x) 1 | _ => Qeq_bool (fst x) 0 end.
Lemma on_side_param a x t : a < 4 -> peq x (side_pt a t) -> on_side a x = true /\ (t == sparam a x)%Q.
Proof.
  intros L [E1 E2]. four a; unfold on_side, sparam; rewrite Qeq_bool_iff; pts'; split; lra.
Qed.
Lemma side_nodes e a k t : torn e = false -> a < 4 -> k < nd2 e -> peq (node2 e k) (side_pt a t) ->
  k = a /\ (t == 0)%Q \/ k = (a + 1) mod 4 /\ (t == 1)%Q \/ exists i, i < dpe D2 e /\ k = eslot e a i /\ (t == etime e i)%Q.
Proof.
  intros T La Lk E. destruct (on_side_param a _ t La E) as [O P].
  assert (A : forallb (fun a => forallb (fun k => negb (on_side a (node2 e k)) || (k =? a) || (k =? (a + 1) mod 4) ||
     existsb (fun i => k =? eslot e a i) (seq 0 (dpe D2 e))) (seq 0 (nd2 e))) (seq 0 4) = true)
    by (destruct e; try discriminate T; vm_compute; reflexivity).
  rewrite seq_all in A. specialize (A a La). rewrite seq_all in A. specialize (A k Lk). rewrite O in A. cbn [negb orb] in A.
  rewrite !orb_true_iff, !Nat.eqb_eq in A. destruct A as [[A|A]|A].
  - left. split; auto. subst k. apply (side_inj_t a); auto. eapply peq_t; [apply peq_s; exact E|].
    eapply peq_t; [apply (node2_corner e a T La)|apply peq_s, side_0; auto].
  - right. left. split; auto. subst k. apply (side_inj_t a); auto. eapply peq_t; [apply peq_s; exact E|].
    eapply peq_t; [apply (node2_corner e _ T); apply Nat.mod_upper_bound; lia|apply peq_s, side_1; auto].
  - right. right. apply existsb_exists in A. destruct A as [i [Hi A]]. apply Nat.eqb_eq in A. apply in_seq in Hi. exists i.
    split; [lia|]. split; auto. subst k. apply (side_inj_t a); auto. eapply peq_t; [apply peq_s; exact E|]. apply node2_edge; auto. lia.
Qed.
(** a node of a cell in the quarter [i] is inherited by the child [i] *)
Lemma nodes_quarter e i j x : torn e = false -> i < 4 -> j < nd2 e -> unit_pt x -> peq (quarter i x) (node2 e j) ->
  exists k, In (j, k) (inherited (ref2 e) i) /\ k < nd2 e /\ peq x (node2 e k).
Proof.
  intros T Li Lj U E.
  set (back := fun i j => ((2 * fst (node2 e j) - fst (corner i))%Q, (2 * snd (node2 e j) - snd (corner i))%Q)).
  assert (A : forallb (fun i => forallb (fun j => negb (unit_pb (back i j)) ||
     existsb (fun a => (fst a =? j) && (snd a <? nd2 e) && peqb (back i j) (node2 e (snd a))) (inherited (ref2 e) i)) (seq 0 (nd2 e))) (seq 0 4) = true)
    by (destruct e; try discriminate T; vm_compute; reflexivity).
  rewrite seq_all in A. specialize (A i Li). rewrite seq_all in A. specialize (A j Lj).
  assert (B : peq x (back i j)) by (unfold back, quarter, peq in *; cbn [fst snd] in *; split; lra).
  assert (UB : unit_pb (back i j) = true) by (apply unit_pb_spec; eapply unit_peq; eauto). rewrite UB in A. cbn [negb orb] in A.
  apply existsb_exists in A. destruct A as [[j' k] [HI A]]. cbn [fst snd] in A. rewrite !andb_true_iff, Nat.eqb_eq, Nat.ltb_lt, peqb_spec in A.
  destruct A as [[-> A2] A3]. exists k. split; auto. split; auto. eapply peq_t; eauto.
Qed.
Lemma inh2_place e i j k : i < 4 -> In (j, k) (inherited (ref2 e) i) ->
  j < nd2 e /\ k < nd2 e /\ peq (node2 e j) (quarter i (node2 e k)).
Proof.
  intros Li HI.
  assert (A : forallb (fun i => forallb (fun a => (fst a <? nd2 e) && (snd a <? nd2 e) && peqb (node2 e (fst a)) (quarter i (node2 e (snd a)))) (inherited (ref2 e) i)) (seq 0 4) = true)
    by (destruct e; vm_compute; reflexivity).
  rewrite seq_all in A. specialize (A i Li). rewrite forallb_forall in A. specialize (A _ HI). cbn [fst snd] in A.
  rewrite !andb_true_iff, !Nat.ltb_lt, peqb_spec in A. tauto.
Qed.

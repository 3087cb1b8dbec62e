(** * C33, C34: distributing degrees of freedom on 1D meshes *)
From Coq Require Import List Arith Bool Lia QArith Lqa.
Import ListNotations.
From Verif Require Import Tree Forest SpecForest History Geom SpecGeom Mesh1D Fem SpecFem Dof SpecDof
  TreeFacts ForestFacts GenFacts DofFacts DofInv Dof1DFacts Dof1DHist.
Open Scope nat_scope.

Lemma keeps_slot s s' : keeps' s s' -> keeps s s'.
Proof. intros K p k d H. apply slot_dof. apply K. apply slot_dof. auto. Qed.
Lemma filled_slots n s p : wf n s -> 0 < n -> (forall k, k < n -> slot s p k <> None) -> filled n s p.
Proof.
  intros W L C. assert (exists l, gd s p = Some l) as [l E].
  { specialize (C 0 L). unfold slot in C. destruct (gd s p) as [l|]; [eauto|congruence]. }
  exists l. split; auto. split; [apply (W p l E)|]. intros k Hk. specialize (C k Hk). destruct (slot s p k) as [d|] eqn:Ed; [|congruence].
  exists d. apply slot_dof. auto.
Qed.
Lemma nd_pos e : 0 < nd e.
Proof. destruct e; cbv; lia. Qed.

(** Any history of distributions and refinements, any rooted submesh:
    distribute_dofs raises nothing, keeps every dof that was assigned, fills all
    slots of all cells of the submesh, with different dofs in each cell, and all
    dofs together are 0, ..., n-1, where n is the number of dofs that is kept. *)
Theorem C33_distribute periodic a b e f s sf :
  dof_history periodic a b e f s -> submesh_rooted f sf ->
  exists s', distribute periodic e f sf s = Ok s' /\
    keeps s s' /\ numbered s' /\
    (forall p, in_sub f sf p -> filled (n_dofs D1 e) s' p /\
       forall k j d, dof_at s' p k d -> dof_at s' p j d -> k = j).
Proof.
  intros H R. pose proof (history_mesh _ _ _ _ _ _ H) as M. destruct (mesh_good _ _ _ _ _ M) as [M1 [M2 [M3 M4]]].
  destruct (torn e) eqn:T.
  - destruct (torn_distribute periodic e f sf s T M2 (history_torn _ _ _ _ _ _ T H)) as [s' [E [I [K C]]]].
    exists s'. split; auto. split; [apply keeps_slot; auto|]. split; [eapply base_numbered; apply I|].
    intros p Hp. split; [apply filled_slots; [apply I|apply nd_pos|apply C; auto]|].
    intros k j d H1 H2. apply slot_dof in H1, H2. destruct I as [_ I]. destruct (I p k p j d H1 H2) as [G|G]; apply heir_same in G; auto; congruence.
  - assert (M4' : periodic = true -> 2 <= length f) by auto.
    destruct (distribute_ok periodic f a b e M1 M2 M3 M4' T sf s R (history_inv _ _ _ _ _ _ T H)) as [s' [E [I [K C]]]].
    exists s'. split; auto. split; [apply keeps_slot; auto|]. split; [eapply base_numbered; apply I|].
    intros p Hp. split; [apply filled_slots; [apply I|apply nd_pos|apply C; auto]|].
    intros k j d H1 H2. apply slot_dof in H1, H2. pose proof I as [[W _] [CL [I3 _]]].
    apply (same_slots periodic f a b e M1 M2 M3 M4' p k j); [eauto|eapply slot_bound; eauto|eapply slot_bound; eauto|].
    apply (CL p k p j d d H1 H2). auto.
Qed.
Print Assumptions C33_distribute.

Lemma pos_position e f p k x : position1 e f p k x -> x = pos f e p k.
Proof.
  intros [n [r [E [Er ->]]]]. unfold pos, data. rewrite E. f_equal. unfold nodeQ. symmetry. apply nth_error_nth. auto.
Qed.
(** At any time: two cells (of any level) have the same dof at two nodes if and
    only if these are the same point. *)
Theorem C34_continuous periodic a b e f s p k x d q j y d' :
  dof_history periodic a b e f s -> torn e = false ->
  dof_at s p k d -> dof_at s q j d' -> position1 e f p k x -> position1 e f q j y ->
  (d = d' <-> same_point periodic a b x y).
Proof.
  intros H T H1 H2 X Y. apply slot_dof in H1, H2. destruct (history_inv _ _ _ _ _ _ T H) as [_ [CL _]].
  rewrite (CL p k q j d d' H1 H2). unfold same. cbn [fst snd]. rewrite <- (pos_position _ _ _ _ _ X), <- (pos_position _ _ _ _ _ Y). tauto.
Qed.
Print Assumptions C34_continuous.
(** every dof is at a node of a cell of the mesh *)
Theorem C34_positions periodic a b e f s p k d : dof_history periodic a b e f s -> torn e = false ->
  dof_at s p k d -> exists x, position1 e f p k x.
Proof.
  intros H T H1. apply slot_dof in H1. destruct (history_inv _ _ _ _ _ _ T H) as [[W _] [_ [I3 _]]].
  destruct (here_data f p (I3 _ _ _ H1)) as [n [E D]]. exists (pos f e p k). exists n, (nodeQ e k). split; auto. split.
  - apply nodes_nth. eapply slot_bound; eauto.
  - unfold pos. rewrite D. auto.
Qed.
Print Assumptions C34_positions.
(** A discontinuous element shares dofs only between a cell and its
    descendants, at the same point. *)
Lemma heir_pos (f : forest itv) e y z : fgen ikid f -> (forall p n, fget f p = Some n -> n_children n = 2) ->
  heir (inherited (ref1 e)) 2 y z -> fst y <> [] -> here f (fst z) -> (pos f e (fst y) (snd y) == pos f e (fst z) (snd z))%Q.
Proof.
  intros G U H Hy. induction H as [y|y p j i k H IH Hi HI]; intro Hz; [reflexivity|]. cbn [fst snd] in *.
  assert (Np : p <> []) by (apply heir_prefix in H; destruct H as [r E]; cbn in E; intros ->; apply Hy; destruct (fst y); [auto|discriminate]).
  destruct (kid_facts f G U p i Np Hz) as [Hp [_ [D _]]]. rewrite (IH Hy Hp). unfold pos. rewrite D. apply inh_place; auto.
Qed.
Theorem C34_torn periodic a b e f s p k x q j y d :
  dof_history periodic a b e f s -> torn e = true ->
  dof_at s p k d -> dof_at s q j d -> position1 e f p k x -> position1 e f q j y ->
  (prefix p q \/ prefix q p) /\ (x == y)%Q.
Proof.
  intros H T H1 H2 X Y. apply slot_dof in H1, H2. destruct (history_torn _ _ _ _ _ _ T H) as [_ I].
  pose proof (history_mesh _ _ _ _ _ _ H) as M. destruct (mesh_good _ _ _ _ _ M) as [M1 [M2 _]].
  assert (Hp : here f p) by (destruct X as [n [r [E _]]]; unfold here; congruence).
  assert (Hq : here f q) by (destruct Y as [n [r [E _]]]; unfold here; congruence).
  rewrite (pos_position _ _ _ _ _ X), (pos_position _ _ _ _ _ Y).
  destruct (I p k q j d H1 H2) as [G|G].
  - split; [left; apply (heir_prefix _ _ _ _ G)|]. apply (heir_pos f e _ _ M1 M2 G); auto. eapply here_ne; eauto.
  - split; [right; apply (heir_prefix _ _ _ _ G)|]. symmetry. apply (heir_pos f e _ _ M1 M2 G); auto. eapply here_ne; eauto.
Qed.
Print Assumptions C34_torn.

(** Examples: a mesh of [0,1] with two roots; distribute, refine the first leaf,
    distribute again. *)
Definition ex_ops : list (@op itv) := [OAddTree 2 (0, (1 # 2))%Q; OAddTree 2 ((1 # 2), 1)%Q; OSplit [0]; OMark [0; 0] 7; ORecord 3].
Definition ex_f : forest itv := match run ikid [] ex_ops with Ok f => f | Err _ => [] end.
Lemma ex_mesh periodic e : mesh1d periodic 0 1 e ex_f.
Proof.
  split; [exists ex_ops; split; [repeat constructor|reflexivity]|]. split; [vm_compute; repeat split; reflexivity|].
  split; [|intros _ _; vm_compute; lia]. intros t [<-|[<-|[]]]; reflexivity.
Qed.
Definition dist (periodic : bool) (e : elem) (f : forest itv) (sf : option flag) (s : dofs) : dofs :=
  match distribute periodic e f sf s with Ok s' => s' | Err _ => no_dofs end.
Definition ex_f2 : forest itv := match step ikid ex_f (ORefine (Some 3) (Some 7) None true) with Ok f => f | Err _ => [] end.
Definition ex_s (periodic : bool) (e : elem) : dofs := dist periodic e ex_f2 (Some 3) (dist periodic e ex_f None no_dofs).
Lemma ex_rooted : submesh_rooted ex_f2 (Some 3).
Proof.
  assert (P : forall p, present ex_f2 p = true -> marked_at ex_f2 p 3 = true).
  { intros [|[|[|i]] [|[|[|j]] [|[|[|k]] [|l r]]]] H; try reflexivity; vm_compute in H; try discriminate;
    repeat (destruct i; try discriminate); repeat (destruct j; try discriminate); repeat (destruct k; try discriminate);
    repeat (destruct l; try discriminate). }
  assert (Q : forall p, marked_at ex_f2 p 3 = true -> present ex_f2 p = true) by (intros p H; eapply LabelFacts.marked_present; eauto).
  split; [intros i H; auto|]. split; [|intros a i j Ha H1 H2; auto].
  intros a i r Ha H. apply Q in H. apply P. unfold present in *. destruct a as [|x a]; [congruence|]. rewrite fget_app in H. destruct (fget ex_f2 (x :: a)); [auto|discriminate].
Qed.
Example C33_case periodic e : dof_history periodic 0 1 e ex_f2 (ex_s periodic e).
Proof.
  assert (H0 : dof_history periodic 0 1 e ex_f no_dofs) by (constructor; apply ex_mesh).
  assert (H1 : dof_history periodic 0 1 e ex_f (dist periodic e ex_f None no_dofs)).
  { destruct (C33_distribute _ _ _ _ _ _ None H0 Logic.I) as [s' [E _]]. unfold dist. rewrite E. apply (DH_distribute _ _ _ _ _ _ None s' H0 Logic.I E). }
  assert (H2 : dof_history periodic 0 1 e ex_f2 (dist periodic e ex_f None no_dofs)).
  { eapply (DH_change _ _ _ _ ex_f _ (ORefine (Some 3) (Some 7) None true)); [exact H1|exact Logic.I|reflexivity]. }
  destruct (C33_distribute _ _ _ _ _ _ (Some 3) H2 ex_rooted) as [s' [E _]]. unfold ex_s, dist at 1. rewrite E. apply (DH_distribute _ _ _ _ _ _ (Some 3) s' H2 ex_rooted E).
Qed.
Example C33_case_q1 : map (fun c => (fst c, gd (ex_s true Q1) (fst c))) (ftraverse ex_f2 None BreadthFirst) =
  [([0], Some [Some 0; Some 1]); ([1], Some [Some 1; Some 0]); ([0; 0], Some [Some 0; Some 2]); ([0; 1], Some [Some 2; Some 1]);
   ([0; 0; 0], Some [Some 0; Some 3]); ([0; 0; 1], Some [Some 3; Some 2])] /\ dcount (ex_s true Q1) = 4.
Proof. vm_compute. split; reflexivity. Qed.
Example C34_case_dq1 : map (fun c => (fst c, gd (ex_s false DQ1) (fst c))) (ftraverse ex_f2 None BreadthFirst) =
  [([0], Some [Some 0; Some 1]); ([1], Some [Some 2; Some 3]); ([0; 0], Some [Some 0; Some 4]); ([0; 1], Some [Some 5; Some 1]);
   ([0; 0; 0], Some [Some 0; Some 6]); ([0; 0; 1], Some [Some 7; Some 4])].
Proof. vm_compute. reflexivity. Qed.

(** ** A periodic mesh with one root cell *)
(** Distributing on the unrefined mesh: two dofs are used but one is counted
    (1D: the dof of the interior is not removed from the list of unused dofs);
    after a refinement the dof 1 is given out again, twice in one cell. *)
Definition one_f : forest itv := match run ikid [] [OAddTree 2 (0, 1)%Q] with Ok f => f | Err _ => [] end.
Definition two_f : forest itv := match run ikid [] [OAddTree 2 (0, 1)%Q; OSplit [0]] with Ok f => f | Err _ => [] end.
Definition one_s : dofs := dist true Q2 one_f None no_dofs.
Theorem C33_periodic_single_refuted :
  exists s1 s2, distribute true Q2 one_f None no_dofs = Ok s1 /\ dof_at s1 [0] 2 1 /\ dcount s1 = 1 /\
    distribute true Q2 two_f None s1 = Ok s2 /\ dof_at s2 [0; 0] 1 1 /\ dof_at s2 [0; 0] 2 1.
Proof.
  assert (E : exists s2, distribute true Q2 two_f None one_s = Ok s2 /\ gd s2 [0; 0] = Some [Some 0; Some 1; Some 1]).
  { destruct (distribute true Q2 two_f None one_s) as [s2|x] eqn:E.
    - exists s2. split; auto. assert (X : match distribute true Q2 two_f None one_s with Ok t => gd t [0; 0] | Err _ => None end = Some [Some 0; Some 1; Some 1]) by (vm_cast_no_check (@eq_refl (option (list (option nat))) (Some [Some 0; Some 1; Some 1]))).
      rewrite E in X. exact X.
    - exfalso. assert (X : match distribute true Q2 two_f None one_s with Ok t => true | Err _ => false end = true) by (vm_cast_no_check (@eq_refl bool true)).
      rewrite E in X. discriminate. }
  destruct E as [s2 [E G]]. exists one_s, s2.
  split; [reflexivity|]. split; [exists [Some 0; Some 0; Some 1]; split; [vm_cast_no_check (@eq_refl (option (list (option nat))) (Some [Some 0; Some 0; Some 1]))|reflexivity]|].
  split; [vm_cast_no_check (@eq_refl nat 1)|]. split; [exact E|].
  split; exists [Some 0; Some 1; Some 1]; split; try exact G; reflexivity.
Qed.
Print Assumptions C33_periodic_single_refuted.
(** Refined first: the two ends of the domain have different dofs. *)
Theorem C34_periodic_single_refuted :
  exists s, distribute true Q2 two_f None no_dofs = Ok s /\ dof_at s [0] 0 0 /\ dof_at s [0] 1 1 /\
    position1 Q2 two_f [0] 0 0 /\ position1 Q2 two_f [0] 1 1 /\ same_point true 0 1 0 1.
Proof.
  exists (dist true Q2 two_f None no_dofs). split; [reflexivity|].
  split; [eexists; split; vm_compute; reflexivity|]. split; [eexists; split; vm_compute; reflexivity|].
  split; [eexists; exists 0%Q; split; [reflexivity|split; reflexivity]|].
  split; [eexists; exists 1%Q; split; [reflexivity|split; reflexivity]|]. right. split; auto. left. split; reflexivity.
Qed.
Print Assumptions C34_periodic_single_refuted.

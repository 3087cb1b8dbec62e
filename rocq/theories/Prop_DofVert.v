(** * C37: dof vertices, C38: number of dofs, C39: index maps (1D meshes) *)
From Coq Require Import List Arith Bool Lia QArith Lqa Permutation.
Import ListNotations.
From Verif Require Import Tree Forest SpecForest History Geom SpecGeom LeafFacts Mesh1D Mesh1DFacts Fem SpecFem Dof SpecDof
  TreeFacts ForestFacts GenFacts DofFacts DofInv GrowFacts Dof1DFacts Dof1DHist Prop_Dof1D DofVert SpecDofVert DofVertFacts DofVertHist Basis.
Open Scope nat_scope.

(** ** C37 *)
(** distribute_dofs never raises: any history, any rooted submesh *)
Theorem C37_total periodic a b e f s v sf :
  vertex_history any_submesh periodic a b e f s v -> submesh_rooted f sf ->
  exists s' v', distribute_dofs periodic e f sf (s, v) = Ok (s', v').
Proof.
  intros H R. destruct (vertex_dof _ _ _ _ _ _ _ _ H) as [HD HV]. unfold distribute_dofs. cbn [fst snd].
  destruct (C33_distribute _ _ _ _ _ _ sf HD R) as [s1 [E1 [K [_ F]]]]. rewrite E1. cbn [bind].
  assert (V : vsound (located e f s1) v) by (eapply vsound_mono; [|exact HV]; intros d p x; apply located_mono; [apply grows_refl|auto]).
  destruct (set_ok e f sf s1 v (fun p Hp => proj1 (F p Hp)) V) as [v1 [E2 _]]. rewrite E2. cbn [bind]. eauto.
Qed.
Print Assumptions C37_total.

(** what get_dof_vertices returns for a list of dofs are positions of nodes with these dofs *)
Theorem C37_positions allowed periodic a b e f s v ds xs :
  vertex_history allowed periodic a b e f s v -> get_dof_vertices None v (map Some ds) = Ok xs ->
  Forall2 (fun d x => exists p k, dof_at s p k d /\ position1 e f p k x) ds xs.
Proof.
  intros H. destruct (vertex_dof _ _ _ _ _ _ _ _ H) as [_ HV]. unfold get_dof_vertices.
  assert (G : forall ds acc xs, fold_res (fun acc d => bind (dof_vertex None v d) (fun x => Ok (acc ++ x))) (map Some ds) acc = Ok xs ->
    exists ys, xs = acc ++ ys /\ Forall2 (fun d x => exists p k, dof_at s p k d /\ position1 e f p k x) ds ys).
  { clear ds xs. induction ds as [|d ds IH]; intros acc xs E; cbn [map fold_res] in E.
    - injection E as <-. exists []. rewrite app_nil_r. auto.
    - destruct (dof_vertex None v (Some d)) as [x|] eqn:Ed; [|discriminate]. cbn [bind] in E. destruct (IH _ _ E) as [ys [-> F]].
      assert (exists y, x = [y]) as [y ->].
      { unfold dof_vertex in Ed. destruct (dv_get v (Some d)) as [l|] eqn:El; [|discriminate]. apply dv_get_in in El. destruct HV as [_ S]. destruct (S _ _ El) as [Nl _].
        destruct l as [|[p y] l]; [congruence|]. destruct (length ((p, y) :: l) =? 1) eqn:B; injection Ed as <-; [|cbn; eauto].
        apply Nat.eqb_eq in B. destruct l; [cbn; eauto|discriminate]. }
      exists (y :: ys). split; [rewrite <- app_assoc; auto|]. constructor; auto. apply (vertex_known e f s v d y None HV).
      unfold get_dof_vertices. cbn [fold_res]. rewrite Ed. reflexivity. }
  intro E. destruct (G ds [] xs E) as [ys [-> F]]. auto.
Qed.
Print Assumptions C37_positions.

(** on a mesh that is not periodic the vertex is the same in all cells with the dof *)
Theorem C37_unique allowed a b e f s v cells d x p k y :
  vertex_history allowed false a b e f s v -> get_dof_vertices cells v [Some d] = Ok [x] ->
  dof_at s p k d -> position1 e f p k y -> (x == y)%Q.
Proof.
  intros H E Hk Y. destruct (vertex_dof _ _ _ _ _ _ _ _ H) as [HD HV]. destruct (vertex_known e f s v d x cells HV E) as [q [j [Hj X]]].
  destruct (torn e) eqn:T.
  - apply (C34_torn _ _ _ _ _ _ _ _ _ _ _ _ _ HD T Hj Hk X Y).
  - destruct (proj1 (C34_continuous _ _ _ _ _ _ _ _ _ _ _ _ _ _ HD T Hj Hk X Y) eq_refl) as [|[C _]]; [auto|discriminate].
Qed.
Print Assumptions C37_unique.

(** the first distribution gives every dof of the submesh a vertex *)
Theorem C37_first periodic a b e f sf s v :
  mesh1d periodic a b e f -> submesh_rooted f sf -> distribute_dofs periodic e f sf (no_dofs, []) = Ok (s, v) ->
  forall p k d, in_sub f sf p -> dof_at s p k d -> has_vertex v d.
Proof.
  intros M R E p k d Hp Hk. assert (HD : dof_history periodic a b e f no_dofs) by (constructor; auto).
  unfold distribute_dofs in E. cbn [fst snd] in E. destruct (C33_distribute _ _ _ _ _ _ sf HD R) as [s1 [E1 [K [_ F]]]]. rewrite E1 in E. cbn [bind] in E.
  assert (V : vsound (located e f s1) []) by (split; [constructor|intros d' l []]).
  destruct (set_ok e f sf s1 [] (fun p Hp => proj1 (F p Hp)) V) as [v1 [E2 [V1 [_ C]]]]. rewrite E2 in E. cbn [bind] in E. injection E as <- <-.
  assert (KN : known v1 (Some d)).
  { destruct C as [[m [Em [Lm ->]]]|C]; [|apply (C p k d); auto]. exfalso. cbn in Lm. assert (m = 0) by lia. subst m.
    unfold count_dofs in Em. destruct (leaf_region e f sf s1 (fun p Hp => proj1 (F p Hp))) as [l [El [_ Hl]]]. rewrite El in Em. cbn [bind] in Em. injection Em as Em.
    destruct l; [|discriminate]. destruct Hp as [n [En Fn]].
    (* the submesh has a leaf *)
    assert (LF : exists q m, In (q, m) (fget_leaves f None sf DepthFirst)).
    { clear - En Fn R M. destruct (mesh_good _ _ _ _ _ M) as [G _]. revert p En Fn. induction n as [mt dd ks IH] using node_ind'. intros p En Fn.
      destruct (has_children (Node mt dd ks) sf) eqn:HN.
      - apply has_children_fl in HN. destruct HN as [i [c [Ei Fc]]]. apply (IH i c Ei (p ++ [i])); auto. apply (fget_kid f p _ i c En Ei).
      - exists p, (Node mt dd ks). apply in_fget_leaves. split; auto. split; [|exact Logic.I]. split; auto. apply has_children_false. auto. }
    destruct LF as [q [m Hq]]. destruct (slot_leaf e f sf s1 (fun p Hp => proj1 (F p Hp)) q m 0 Hq) as [d' [Hd' _]]; [pose proof (nd_pos e); auto|].
    assert (X : In (Some d') []) by (apply Hl; exists q, m, 0, d'; auto). destruct X. }
  destruct (known_vertex e f s1 v1 d V1 KN) as [x [q [j [X _]]]]. exists x. auto.
Qed.
Print Assumptions C37_first.

(** a continuous element, distributed on the whole mesh after any refinements,
    again and again: every dof has a vertex *)
Theorem C37_whole periodic a b e f s v : torn e = false ->
  vertex_history whole_mesh periodic a b e f s v -> forall d, d < dcount s -> has_vertex v d.
Proof.
  intros T H d Hd. pose proof (whole_known _ _ _ _ _ _ _ T H d Hd) as K. destruct (vertex_dof _ _ _ _ _ _ _ _ H) as [_ HV].
  destruct (known_vertex e f s v d HV K) as [x [q [j [X _]]]]. exists x. auto.
Qed.
Print Assumptions C37_whole.

(** Example: the history of C33_case *)
Definition dist2 (periodic : bool) (e : elem) (f : forest itv) (sf : option flag) (st : dofs * dverts) : dofs * dverts :=
  match distribute_dofs periodic e f sf st with Ok st' => st' | Err _ => (no_dofs, []) end.
Definition ex_v (periodic : bool) (e : elem) : dofs * dverts := dist2 periodic e ex_f2 None (dist2 periodic e ex_f None (no_dofs, [])).
Lemma dist2_history periodic a b e f s v sf : vertex_history any_submesh periodic a b e f s v -> submesh_rooted f sf ->
  vertex_history any_submesh periodic a b e f (fst (dist2 periodic e f sf (s, v))) (snd (dist2 periodic e f sf (s, v))).
Proof.
  intros H R. destruct (C37_total _ _ _ _ _ _ _ sf H R) as [s' [v' E]]. unfold dist2. rewrite E. cbn [fst snd]. eapply VH_distribute; eauto. exact Logic.I.
Qed.
Lemma whole_any periodic a b e f s v : vertex_history whole_mesh periodic a b e f s v -> vertex_history any_submesh periodic a b e f s v.
Proof.
  intro H. induction H; [constructor; auto|eapply VH_distribute; eauto; exact Logic.I|eapply VH_change; eauto].
Qed.
Lemma dist2_whole periodic a b e f s v : vertex_history whole_mesh periodic a b e f s v ->
  vertex_history whole_mesh periodic a b e f (fst (dist2 periodic e f None (s, v))) (snd (dist2 periodic e f None (s, v))).
Proof.
  intros H. destruct (C37_total _ _ _ _ _ _ _ None (whole_any _ _ _ _ _ _ _ H) Logic.I) as [s' [v' E]]. unfold dist2. rewrite E. cbn [fst snd].
  eapply VH_distribute; eauto; [reflexivity|exact Logic.I].
Qed.
Example C37_case periodic e : vertex_history whole_mesh periodic 0 1 e ex_f2 (fst (ex_v periodic e)) (snd (ex_v periodic e)).
Proof.
  unfold ex_v. rewrite (surjective_pairing (dist2 periodic e ex_f None (no_dofs, []))). apply dist2_whole.
  eapply VH_change with (o := ORefine (Some 3) (Some 7) None true); [apply dist2_whole; constructor; apply ex_mesh|exact Logic.I|reflexivity].
Qed.
Example C37_case_q1 : get_dof_vertices None (snd (ex_v false Q1)) (map Some [4; 0; 2; 3; 1]) = Ok [1 # 8; 0 # 2; 4 # 4; 1 # 4; 1 # 2]%Q.
Proof. vm_compute. reflexivity. Qed.

(** *** Where dofs have no vertices *)
Definition frun (f : forest itv) (l : list op) : forest itv := match run ikid f l with Ok f' => f' | Err _ => [] end.
Definition z_f1 : forest itv := frun [] [OAddTree 2 (0, 1)%Q].
Definition z_f2 : forest itv := frun z_f1 [ORefine None None None true].
Definition z_f3 : forest itv := frun z_f2 [OMark [0; 0] 7].
Definition z_f4 : forest itv := frun z_f3 [ORefine None (Some 7) None true].
Definition z_s : dofs * dverts := dist2 false DQ0 z_f4 None (dist2 false DQ0 z_f2 None (dist2 false DQ0 z_f1 None (no_dofs, []))).
(** DQ0 on the whole mesh: distribute, refine the cell, distribute, refine the
    first child, distribute: the new dofs have no vertex, get_dof_vertices()
    raises KeyError *)
Theorem C37_dq0_refuted : vertex_history whole_mesh false 0 1 DQ0 z_f4 (fst z_s) (snd z_s) /\
  in_sub z_f4 None [0; 0; 0] /\ dof_at (fst z_s) [0; 0; 0] 0 3 /\
  get_dof_vertices None (snd z_s) [Some 3] = Err KeyError.
Proof.
  split.
  - unfold z_s. rewrite (surjective_pairing (dist2 false DQ0 z_f2 None _)). apply dist2_whole.
    eapply VH_change with (o := ORefine None (Some 7) None true) (f := z_f3); [|exact Logic.I|reflexivity].
    eapply VH_change with (o := OMark [0; 0] 7) (f := z_f2); [|exact Logic.I|reflexivity].
    rewrite (surjective_pairing (dist2 false DQ0 z_f1 None _)). apply dist2_whole.
    eapply VH_change with (o := ORefine None None None true) (f := z_f1); [|exact Logic.I|reflexivity].
    apply dist2_whole. constructor. split; [exists [OAddTree 2 (0, 1)%Q]; split; [repeat constructor|reflexivity]|].
    split; [vm_compute; repeat split; reflexivity|]. split; [|intros; discriminate]. intros t [<-|[]]. reflexivity.
  - split; [eexists; split; [reflexivity|exact Logic.I]|]. split; [exists [Some 3]; split; [vm_cast_no_check (@eq_refl (option (list (option nat))) (Some [Some 3]))|reflexivity]|].
    vm_cast_no_check (@eq_refl (res (list Q)) (Err KeyError)).
Qed.
Print Assumptions C37_dq0_refuted.

(** Two submeshes, linear elements: submesh 3 refines the left root, submesh 4
    the right one; after both distributions the middle of the right root has no
    vertex *)
Definition w_ops : list (@op itv) := [OAddTree 2 (0, (1 # 2))%Q; OAddTree 2 ((1 # 2), 1)%Q; ORecord 3; ORecord 4; OMark [0] 7; ORefine (Some 3) (Some 7) None true; OMark [1] 8].
Definition w_f1 : forest itv := frun [] w_ops.
Definition w_f2 : forest itv := frun w_f1 [ORefine (Some 4) (Some 8) None true].
Definition w_s : dofs * dverts := dist2 false Q1 w_f2 (Some 4) (dist2 false Q1 w_f1 (Some 3) (no_dofs, [])).
Ltac few H := vm_compute in H; try discriminate.
Lemma w_r3 : rooted w_f1 3.
Proof.
  assert (P : forall p, present w_f1 p = true -> marked_at w_f1 p 3 = true).
  { intros [|[|[|i]] [|[|[|j]] [|k r]]] H; try reflexivity; vm_compute in H; try discriminate;
    repeat (destruct i; try discriminate); repeat (destruct j; try discriminate); repeat (destruct k; try discriminate). }
  assert (Q : forall p, marked_at w_f1 p 3 = true -> present w_f1 p = true) by (intros p H; eapply LabelFacts.marked_present; eauto).
  split; [intros i H; auto|]. split; [|intros a i j Ha H1 H2; auto].
  intros a i r Ha H. apply Q in H. apply P. unfold present in *. destruct a as [|x a]; [congruence|]. rewrite fget_app in H. destruct (fget w_f1 (x :: a)); [auto|discriminate].
Qed.
Lemma w_r4 : rooted w_f2 4.
Proof.
  assert (M : forall p, marked_at w_f2 p 4 = true <-> In p [[0]; [1]; [1; 0]; [1; 1]]).
  { intro p. split.
    - destruct p as [|[|[|i]] [|[|[|j]] [|[|k] r]]]; intro H; try (vm_compute in H; discriminate); try (cbn; tauto);
      vm_compute in H; repeat (destruct i; try discriminate); repeat (destruct j; try discriminate); repeat (destruct k; try discriminate).
    - intros [<-|[<-|[<-|[<-|[]]]]]; reflexivity. }
  split; [|split].
  - intros i H. apply M. destruct i as [|[|i]]; [cbn; auto|cbn; auto|vm_compute in H; destruct i; discriminate].
  - intros a i r Ha H. apply M in H. apply M. destruct H as [H|[H|[H|[H|[]]]]]; destruct a as [|x [|y a]]; try congruence; cbn in H; injection H as; subst; cbn; auto;
    destruct a; discriminate.
  - intros a i j Ha H1 H2. apply M in H1. apply M. destruct H1 as [H|[H|[H|[H|[]]]]]; destruct a as [|x [|y a]]; try congruence; cbn in H; try discriminate; try (destruct a; discriminate);
    injection H as <- <-; destruct j as [|[|j]]; try (cbn; tauto); vm_compute in H2; destruct j; discriminate.
Qed.
Theorem C37_submesh_refuted : vertex_history any_submesh false 0 1 Q1 w_f2 (fst w_s) (snd w_s) /\
  in_sub w_f2 (Some 4) [1; 0] /\ dof_at (fst w_s) [1; 0] 1 4 /\ get_dof_vertices None (snd w_s) [Some 4] = Err KeyError.
Proof.
  split.
  - unfold w_s. rewrite (surjective_pairing (dist2 false Q1 w_f1 (Some 3) _)). apply dist2_history; [|exact w_r4].
    eapply VH_change with (o := ORefine (Some 4) (Some 8) None true) (f := w_f1); [|exact Logic.I|vm_cast_no_check (@eq_refl (res (forest itv)) (Ok w_f2))].
    apply dist2_history; [|exact w_r3]. constructor.
    split; [exists w_ops; split; [repeat constructor|vm_cast_no_check (@eq_refl (res (forest itv)) (Ok w_f1))]|]. split; [vm_compute; repeat split; reflexivity|].
    split; [|intros; discriminate]. intros t [<-|[<-|[]]]; reflexivity.
  - split; [assert (X : match fget w_f2 [1; 0] with Some n => is_marked n (Some 4) | None => false end = true) by (vm_compute; reflexivity); unfold in_sub; destruct (fget w_f2 [1; 0]) as [n|]; [exists n; auto|discriminate]|]. split; [exists [Some 1; Some 4]; split; [vm_cast_no_check (@eq_refl (option (list (option nat))) (Some [Some 1; Some 4]))|reflexivity]|].
    vm_cast_no_check (@eq_refl (res (list Q)) (Err KeyError)).
Qed.
Print Assumptions C37_submesh_refuted.

(** A periodic mesh with two cells: the argument cells={dof: cell} does not
    select the vertex in the given cell: dof 0 is the right end of the second
    cell, but its left end in the first cell is returned. *)
Definition y_f : forest itv := frun [] [OAddTree 2 (0, (1 # 2))%Q; OAddTree 2 ((1 # 2), 1)%Q].
Definition y_s : dofs * dverts := dist2 true Q1 y_f None (no_dofs, []).
Theorem C37_cells_refuted : vertex_history any_submesh true 0 1 Q1 y_f (fst y_s) (snd y_s) /\
  dof_at (fst y_s) [1] 1 0 /\ (exists x, position1 Q1 y_f [1] 1 x /\ (x == 1)%Q) /\
  exists y, get_dof_vertices (Some (fun _ => Some [1])) (snd y_s) [Some 0] = Ok [y] /\ (y == 0)%Q.
Proof.
  split; [apply dist2_history; [|exact Logic.I]; constructor; split; [exists [OAddTree 2 (0, (1 # 2))%Q; OAddTree 2 ((1 # 2), 1)%Q]; split; [repeat constructor|reflexivity]|]; split; [vm_compute; repeat split; reflexivity|]; split; [|intros; vm_compute; lia]; intros t [<-|[<-|[]]]; reflexivity|].
  split; [exists [Some 1; Some 0]; split; [vm_cast_no_check (@eq_refl (option (list (option nat))) (Some [Some 1; Some 0]))|reflexivity]|].
  split.
  - eexists. split; [eexists; eexists; split; [reflexivity|split; [reflexivity|reflexivity]]|reflexivity].
  - exists (imap (0, (1 # 2))%Q 0). split; [|reflexivity]. vm_compute. reflexivity.
Qed.
Print Assumptions C37_cells_refuted.

(** ** C38 *)
(** n_dofs(subforest_flag) after distribute_dofs(subforest_flag): with a
    continuous element of degree r and m leaves there are m*r+1 dofs, m*r if the
    mesh is periodic; with a torn element every leaf has its own *)
Theorem C38_continuous periodic a b e f s sf s' :
  dof_history periodic a b e f s -> torn e = false -> f <> [] -> submesh_rooted f sf -> distribute periodic e f sf s = Ok s' ->
  count_dofs f sf s' = Ok (length (fget_leaves f None sf BreadthFirst) * degree e + (if periodic then 0 else 1)).
Proof.
  intros H T N R E. destruct (C33_distribute _ _ _ _ _ _ sf H R) as [s1 [E1 [_ [_ F]]]]. rewrite E in E1. injection E1 as <-.
  assert (HD : dof_history periodic a b e f s') by (eapply DH_distribute; eauto).
  destruct (count_continuous periodic a b e f sf s' HD R (fun p Hp => proj1 (F p Hp)) T N) as [l [El Ll]].
  unfold count_dofs. rewrite El. cbn [bind]. f_equal. rewrite Ll. rewrite (leaves_len f sf DepthFirst BreadthFirst). auto.
Qed.
Print Assumptions C38_continuous.
Theorem C38_torn periodic a b e f s sf s' :
  dof_history periodic a b e f s -> torn e = true -> submesh_rooted f sf -> distribute periodic e f sf s = Ok s' ->
  count_dofs f sf s' = Ok (length (fget_leaves f None sf BreadthFirst) * n_dofs D1 e).
Proof.
  intros H T R E. destruct (C33_distribute _ _ _ _ _ _ sf H R) as [s1 [E1 [_ [_ F]]]]. rewrite E in E1. injection E1 as <-.
  assert (HD : dof_history periodic a b e f s') by (eapply DH_distribute; eauto).
  destruct (count_torn periodic a b e f sf s' HD R (fun p Hp => proj1 (F p Hp)) T) as [l [El Ll]].
  unfold count_dofs. rewrite El. cbn [bind]. f_equal. rewrite Ll. rewrite (leaves_len f sf DepthFirst BreadthFirst). auto.
Qed.
Print Assumptions C38_torn.
(** the dofs of a continuous element on the whole mesh are all on its leaves *)
Example C38_case : count_dofs ex_f2 (Some 3) (ex_s true Q3) = Ok (4 * 3 + 0) /\ count_dofs ex_f2 (Some 3) (ex_s false DQ2) = Ok (4 * 3) /\
  count_dofs ex_f2 None (ex_s false Q2) = Ok (4 * 2 + 1).
Proof. vm_compute. auto. Qed.

(** ** C39 *)
(** Basis(dofhandler, ..., flag), whose dofs are listed as [l] (a list without
    repetitions): if the last one is the largest then the two index maps are
    inverse to each other, otherwise the constructor raises IndexError *)
Lemma assign_len l : forall v c v' c', fold_res assign_index l (v, c) = Ok (v', c') -> length v' = length v /\ c' = c + length l.
Proof.
  induction l as [|d l IH]; intros v c v' c' E; cbn [fold_res] in E; [injection E as <- <-; cbn; lia|].
  unfold assign_index in E at 1. cbn [fst snd] in E. destruct (d <? length v); [|discriminate]. cbn [bind] in E. apply IH in E.
  rewrite set_nth_length in E. cbn [length]. lia.
Qed.
Lemma assign_all l : forall v c, (forall d, In d l -> d < length v) -> NoDup l ->
  exists v' c', fold_res assign_index l (v, c) = Ok (v', c') /\
    (forall i d, nth_error l i = Some d -> nth_error v' d = Some (Some (c + i))) /\
    (forall d, ~ In d l -> nth_error v' d = nth_error v d).
Proof.
  induction l as [|d l IH]; intros v c H N; cbn [fold_res].
  - exists v, c. split; auto. split; [intros [|i] d E; discriminate|auto].
  - unfold assign_index at 1. cbn [fst snd]. assert (Ld : d < length v) by (apply H; left; auto). apply Nat.ltb_lt in Ld as Lb. rewrite Lb. cbn [bind].
    inversion_clear N as [|? ? Nd N'].
    destruct (IH (set_nth d (Some c) v) (S c)) as [v' [c' [E [A B]]]]; auto; [intros x Hx; rewrite set_nth_length; apply H; right; auto|].
    exists v', c'. split; auto. split.
    + intros [|i] x Ex; cbn in Ex.
      * injection Ex as <-. rewrite B by auto. rewrite nth_set_nth_eq by auto. f_equal. f_equal. lia.
      * rewrite (A i x Ex). f_equal. f_equal. lia.
    + intros x Hx. cbn in Hx. rewrite B by tauto. apply nth_set_nth_neq. tauto.
Qed.
Theorem C39_index_maps l : NoDup l -> l <> [] -> (forall d, In d l -> d <= last l 0) ->
  exists B, basis_init l = Ok B /\
    (forall i, i < length l -> exists d, basis_i2d B i = Ok d /\ In d l /\ basis_d2i B d = Ok (Some i)) /\
    (forall d, In d l -> exists i, basis_d2i B d = Ok (Some i) /\ i < length l /\ basis_i2d B i = Ok d) /\
    (forall d, ~ In d l -> d <= last l 0 -> basis_d2i B d = Ok None) /\
    (forall d, last l 0 < d -> basis_d2i B d = Err IndexError).
Proof.
  intros N NE H. unfold basis_init. destruct l as [|a r]; [congruence|]. set (l := a :: r) in *. set (m := last l 0) in *.
  destruct (assign_all l (repeat None (S m)) 0) as [v [c [E [A B]]]]; auto.
  { intros d Hd. rewrite repeat_length. specialize (H d Hd). lia. }
  pose proof (assign_len _ _ _ _ _ E) as [Lv _]. rewrite repeat_length in Lv.
  rewrite E. cbn [bind fst]. exists (v, l). split; auto. unfold basis_i2d, basis_d2i. cbn [fst snd]. split; [|split; [|split]].
  - intros i Hi. destruct (nth_error l i) as [d|] eqn:Ed; [|apply nth_error_None in Ed; lia]. exists d. split; auto. split; [eapply nth_error_In; eauto|].
    rewrite (A i d Ed). auto.
  - intros d Hd. apply In_nth_error in Hd. destruct Hd as [i Ei]. exists i. rewrite (A i d Ei), Ei. split; auto. split; auto. apply nth_error_Some. congruence.
  - intros d Hd Ld. rewrite (B d Hd). assert (L : d < S m) by lia.
    assert (X : forall n k, k < n -> nth_error (repeat (@None nat) n) k = Some None) by (clear; induction n as [|n IH]; intros [|k] L; cbn; try lia; auto; apply IH; lia).
    rewrite X; auto.
  - intros d Ld. destruct (nth_error v d) eqn:Ed; auto. exfalso. assert (d < length v) by (apply nth_error_Some; congruence). lia.
Qed.
Print Assumptions C39_index_maps.
Theorem C39_order l d : In d l -> last l 0 < d -> basis_init l = Err IndexError.
Proof.
  intros Hd Hm. unfold basis_init. destruct l as [|a r]; [destruct Hd|]. set (l := a :: r) in *. set (m := last l 0) in *.
  assert (G : forall l v c, In d l -> length v <= d -> fold_res assign_index l (v, c) = Err IndexError).
  { clear. induction l as [|x l IH]; intros v c H L; [destruct H|]. cbn [fold_res]. unfold assign_index at 1. cbn [fst snd].
    destruct (x <? length v) eqn:B; cbn [bind]; auto. apply Nat.ltb_lt in B. destruct H as [->|H]; [lia|]. apply IH; auto. rewrite set_nth_length. auto. }
  rewrite G; auto. rewrite repeat_length. lia.
Qed.
Print Assumptions C39_order.
(** Two listings of the same set of dofs, one of which raises: the constructor
    relies on the order in which Python lists a set of integers. *)
Theorem C39_unsorted_refuted : exists l l', NoDup l /\ Permutation l l' /\ (exists B, basis_init l = Ok B) /\ basis_init l' = Err IndexError.
Proof.
  exists [0; 1; 8], [8; 0; 1]. split; [repeat constructor; cbn; intuition congruence|]. split; [apply Permutation_cons_append with (l := [0; 1]) (x := 8) || (symmetry; apply Permutation_cons_append with (l := [0; 1]) (x := 8))|].
  split; [eexists; vm_compute; reflexivity|vm_compute; reflexivity].
Qed.
Print Assumptions C39_unsorted_refuted.
Example C39_case : exists B, basis_init [0; 1; 3; 7] = Ok B /\ basis_d2i B 3 = Ok (Some 2) /\ basis_i2d B 2 = Ok 3 /\ basis_d2i B 2 = Ok None.
Proof. eexists. split; [reflexivity|]. vm_compute. auto. Qed.

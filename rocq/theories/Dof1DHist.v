(** Dof histories in 1D *)
From Coq Require Import List Arith Bool Lia QArith Lqa.
Import ListNotations.
From Verif Require Import Tree Forest SpecForest TreeFacts ForestFacts LabelFacts RootFacts History PlaceFacts
  RefineFacts RefineFacts2 Geom GenFacts SpecGeom IntervalFacts LeafFacts Mesh1D Mesh1DFacts Prop_1D Fem SpecFem ShapeFacts
  Prop_Inherit Dof SpecDof DofFacts DofInv GrowFacts Dof1DFacts.
Open Scope Q_scope.

Definition good1d (periodic : bool) (a b : Q) (e : elem) (f : forest itv) : Prop :=
  fgen ikid f /\ (forall p n, fget f p = Some n -> n_children n = 2%nat) /\ tiles a b (map n_data f) /\
  (periodic = true -> torn e = false -> (2 <= length f)%nat).
Lemma fgen_two (f : forest itv) : fgen ikid f -> (forall t, In t f -> n_children t = 2%nat) ->
  forall p n, fget f p = Some n -> n_children n = 2%nat.
Proof.
  intros G H [|i r] n E; [discriminate|]. cbn in E. destruct (nth_error f i) as [t|] eqn:Et; [|discriminate].
  pose proof (G i t Et) as Gt. pose proof (H t (nth_error_In _ _ Et)) as Nt. clear - Gt Nt E. revert t Gt Nt E.
  induction r as [|j r IH]; intros t Gt Nt E; cbn in E; [injection E as <-; auto|].
  destruct (nth_error (n_slots t) j) as [[k|]|] eqn:Ek; try discriminate.
  apply Gen_inv in Gt. destruct Gt as [_ [_ Gt]]. destruct (Gt j k Ek) as [_ [NC Gk]]. eapply (IH k); eauto. congruence.
Qed.
Lemma mesh_good periodic a b e f : mesh1d periodic a b e f -> good1d periodic a b e f.
Proof.
  intros [[l [P E]] [T [U HP]]]. assert (G : fgen ikid f) by (eapply run_gen; eauto; intros i t H; destruct i; discriminate).
  split; auto. split; [apply fgen_two; auto|]. auto.
Qed.
Lemma grows_roots_data (f f' : forest itv) : grows f f' -> map n_data f' = map n_data f.
Proof.
  intros [L H]. apply nth_ext with (d := (0, 0)) (d' := (0, 0)); [rewrite !map_length; auto|]. intros i Hi. rewrite map_length, L in Hi.
  destruct (nth_error f i) as [t|] eqn:Et; [|apply nth_error_None in Et; lia].
  destruct (H [i] t) as [t' [E' [D _]]]; [cbn; rewrite Et; auto|]. cbn in E'. destruct (nth_error f' i) as [u|] eqn:Eu; [|discriminate].
  injection E' as ->. apply nth_error_nth. rewrite nth_error_map, Eu. cbn. rewrite D. f_equal. symmetry. apply nth_error_nth. rewrite nth_error_map, Et. auto.
Qed.
Lemma step_mesh periodic a b e f o f' : growing f o -> step ikid f o = Ok f' -> mesh1d periodic a b e f -> mesh1d periodic a b e f'.
Proof.
  intros G E M. pose proof (grows_step ikid f f' o G E) as GR. pose proof (mesh_good _ _ _ _ _ M) as [FG [HU _]].
  destruct M as [[l [P R]] [T [U HP]]]. split; [|split; [|split]].
  - exists (l ++ [o]). split; [apply Forall_app; split; auto; constructor; auto; eapply growing_plain; eauto|].
    unfold run in *. clear - R E. revert R. generalize (@nil (node itv)). induction l as [|o' l IH]; intros g R; cbn [fold_res app] in *.
    + injection R as ->. rewrite E. reflexivity.
    + destruct (step ikid g o') as [g'|]; cbn [bind] in *; [|discriminate]. auto.
  - rewrite (grows_roots_data f f' GR). auto.
  - intros t Ht. apply In_nth_error in Ht. destruct Ht as [i Ei].
    assert (FG' : fgen ikid f') by (eapply step_gen; eauto; eapply growing_plain; eauto).
    assert (exists u, nth_error f i = Some u) as [u Eu].
    { assert (X : (i < length f')%nat) by (apply nth_error_Some; congruence). destruct GR as [L _]. rewrite L in X.
      destruct (nth_error f i) eqn:Z; [eauto|]. apply nth_error_None in Z. lia. }
    destruct GR as [_ GR]. destruct (GR [i] u) as [t' [Et [_ NC]]]; [cbn; rewrite Eu; auto|]. cbn in Et. rewrite Ei in Et. injection Et as <-.
    rewrite NC. apply U. eapply nth_error_In; eauto.
  - destruct GR as [-> _]. auto.
Qed.

(** a mesh that grows keeps its dofs *)
Section grow.
Context (periodic : bool) (a b : Q) (e : elem) (f f' : forest itv).
Hypothesis HM : good1d periodic a b e f.
Hypothesis HM' : good1d periodic a b e f'.
Hypothesis HG : grows f f'.
Hypothesis Hcont : torn e = false.
Lemma here_grows p : here f p -> here f' p.
Proof. unfold here. destruct (fget f p) as [n|] eqn:E; [|congruence]. intros _. destruct HG as [_ H]. destruct (H p n E) as [n' [-> _]]. discriminate. Qed.
Lemma data_grows p : here f p -> data f' p = data f p.
Proof.
  unfold here, data. destruct (fget f p) as [n|] eqn:E; [|congruence]. intros _. destruct HG as [_ H]. destruct (H p n E) as [n' [-> [D _]]]. auto.
Qed.
Lemma family_grows p i j : here f (p ++ [i]) -> here f' (p ++ [j]) -> here f (p ++ [j]).
Proof.
  intros H1 H2. destruct p as [|x p].
  - cbn [app] in *. apply roots_here in H2. destruct HG as [L _]. rewrite L in H2. apply roots_here. auto.
  - destruct HM as [M1 [M2 _]]. destruct HM' as [M1' [M2' _]].
    destruct (kid_facts f' M1' M2' (x :: p) j ltac:(discriminate) H2) as [_ [L _]].
    destruct (kid_facts f M1 M2 (x :: p) i ltac:(discriminate) H1) as [_ [_ [_ K]]]. auto.
Qed.
Lemma inv_grows s : inv periodic f a b e s -> inv periodic f' a b e s.
Proof.
  intros [B [CL [I3 [I4 I5]]]]. split; auto. split; [|split; [|split]].
  - intros p k q j d d' E1 E2. rewrite (CL p k q j d d' E1 E2). unfold same, pos. cbn [fst snd].
    rewrite (data_grows p) by eauto. rewrite (data_grows q) by eauto. tauto.
  - intros p k d E. apply here_grows. eauto.
  - intros c c' A.
    assert (N : forall q k, ~ here f q -> slot s q k = None) by (intros q k N; destruct (slot s q k) eqn:E; auto; exfalso; apply N; eauto).
    assert (D : forall q, here f q \/ ~ here f q) by (intro q; unfold here; destruct (fget f q); [left; discriminate|right; tauto]).
    destruct A as [[p [i [-> [-> [H1 H2]]]]]|[P [-> [-> [H1 H2]]]]].
    + destruct (D (p ++ [i])) as [D1|D1].
      * apply I4. left. exists p, i. split; auto. split; auto. split; auto. eapply family_grows; eauto.
      * destruct (D (p ++ [S i])) as [D2|D2]; [exfalso; apply D1; eapply family_grows; eauto|].
        rewrite !N by auto. auto.
    + destruct HG as [L _]. apply roots_here in H1, H2. rewrite L in *. apply I4. right. split; auto. split; auto. split; auto.
      split; apply roots_here; auto.
  - intros p i k d Hp E. destruct (I5 p i k d Hp E) as [C H]. split; auto. intros j k1 k2 Hj HI. apply H; auto.
    eapply family_grows; eauto.
Qed.
End grow.

Theorem history_mesh periodic a b e f s : dof_history periodic a b e f s -> mesh1d periodic a b e f.
Proof. induction 1; auto. eapply step_mesh; eauto. Qed.
Theorem history_inv periodic a b e f s : torn e = false -> dof_history periodic a b e f s -> inv periodic f a b e s.
Proof.
  intros T H. induction H as [f M|f s sf s' H IH R E|f s o f' H IH G E].
  - apply inv_empty.
  - destruct (mesh_good _ _ _ _ _ (history_mesh _ _ _ _ _ _ H)) as [M1 [M2 [M3 M4]]].
    destruct (distribute_ok periodic f a b e M1 M2 M3 (fun P => M4 P T) T sf s R IH) as [s2 [E2 [I2 _]]]. congruence.
  - pose proof (history_mesh _ _ _ _ _ _ H) as M. eapply inv_grows; [| | |exact IH]; eauto using mesh_good, step_mesh, grows_step.
Qed.
(** torn elements *)
Lemma torn_uniq e : torn e = true -> forall i i' j k k', (i < 2)%nat -> (i' < 2)%nat ->
  In (j, k) (inherited (ref1 e) i) -> In (j, k') (inherited (ref1 e) i') -> i = i' /\ k = k'.
Proof.
  intros T i i' j k k' Li Li' H1 H2.
  assert (A : forallb (fun i => forallb (fun i' => forallb (fun x => forallb (fun y => negb (fst x =? fst y)%nat || ((i =? i')%nat && (snd x =? snd y)%nat))
     (inherited (ref1 e) i')) (inherited (ref1 e) i)) (seq 0 2)) (seq 0 2) = true) by (destruct e; try discriminate T; vm_compute; reflexivity).
  rewrite seq_all in A. specialize (A i Li). rewrite seq_all in A. specialize (A i' Li'). rewrite forallb_forall in A. specialize (A _ H1).
  rewrite forallb_forall in A. specialize (A _ H2). cbn [fst snd] in A. rewrite Nat.eqb_refl in A. cbn [negb orb] in A.
  apply andb_true_iff in A. rewrite !Nat.eqb_eq in A. auto.
Qed.
Lemma torn_process periodic e (f : forest itv) sf s p x : torn e = true -> n_children x = 2%nat ->
  torn_inv (nd e) (inherited (ref1 e)) 2 s ->
  exists s', process periodic e f sf s (p, x) = Ok s' /\ torn_inv (nd e) (inherited (ref1 e)) 2 s' /\ keeps' s s' /\ (forall k, (k < nd e)%nat -> slot s' p k <> None).
Proof.
  intros T NC I. unfold process. cbn [fst snd].
  assert (O : is_own_neighbor periodic e f p = Ok false) by (unfold is_own_neighbor; rewrite T, andb_false_r; auto).
  destruct (fill_dofs_ok periodic f e s p (proj1 (proj1 I)) O) as [s1 [E1 F]]. rewrite E1. cbn [bind]. unfold share_neighbors. rewrite T. cbn [bind].
  pose proof (torn_fill _ _ _ p s s1 I F) as I1. pose proof (fill_keeps _ _ _ _ F) as K1.
  assert (C1 : forall k, (k < nd e)%nat -> slot s1 p k <> None) by (intros k L; eapply fill_complete; eauto).
  destruct (has_children x sf).
  - eexists. split; [reflexivity|].
    assert (K2 : keeps' s1 (share_children (nd e) (inherited (ref1 e)) p x s1)).
    { intros q k d H. rewrite share_children_slot by apply I1. rewrite H. auto. }
    split; [apply torn_share; auto; [apply torn_uniq; auto|unfold n_children in NC; lia]|]. split; [intros q k d H; apply K2; auto|].
    intros k L. destruct (slot s1 p k) eqn:Ek; [|exfalso; apply (C1 k L Ek)]. change (n_dofs D1 e) with (nd e). rewrite (K2 _ _ _ Ek). discriminate.
  - eexists. split; [reflexivity|]. split; auto.
Qed.
Lemma torn_distribute periodic e (f : forest itv) sf s : torn e = true -> (forall p n, fget f p = Some n -> n_children n = 2%nat) ->
  torn_inv (nd e) (inherited (ref1 e)) 2 s ->
  exists s', distribute periodic e f sf s = Ok s' /\ torn_inv (nd e) (inherited (ref1 e)) 2 s' /\ keeps' s s' /\
    (forall p, in_sub f sf p -> forall k, (k < nd e)%nat -> slot s' p k <> None).
Proof.
  intros T U I. unfold distribute.
  assert (G : forall l s, (forall p x, In (p, x) l -> n_children x = 2%nat) -> torn_inv (nd e) (inherited (ref1 e)) 2 s ->
    exists s', fold_res (process periodic e f sf) l s = Ok s' /\ torn_inv (nd e) (inherited (ref1 e)) 2 s' /\ keeps' s s' /\
      (forall p x, In (p, x) l -> forall k, (k < nd e)%nat -> slot s' p k <> None)).
  { clear s I. induction l as [|[p x] l IH]; intros s H I; cbn [fold_res].
    - exists s. split; auto. split; auto. split; [intros p k d E; auto|intros p x []].
    - destruct (torn_process periodic e f sf s p x T (H p x (or_introl eq_refl)) I) as [s1 [E1 [I1 [K1 C1]]]]. rewrite E1. cbn [bind].
      destruct (IH s1) as [s2 [E2 [I2 [K2 C2]]]]; auto; [intros q y Hy; apply (H q y); right; auto|].
      exists s2. split; auto. split; auto. split; [intros q k d E; auto|]. intros q y [Hy|Hy] k L; [|eapply C2; eauto].
      injection Hy as <- <-. destruct (slot s1 p k) eqn:Ek; [|exfalso; apply (C1 k L Ek)]. rewrite (K2 _ _ _ Ek). discriminate. }
  destruct (G (ftraverse f sf BreadthFirst) s) as [s' [E [I' [K C]]]]; auto.
  - intros p x Hx. apply in_ftraverse in Hx. apply (U p x). tauto.
  - exists s'. split; auto. split; auto. split; auto. intros p [x [Ex Fx]]. apply (C p x). apply in_ftraverse. auto.
Qed.
Theorem history_torn periodic a b e f s : torn e = true -> dof_history periodic a b e f s -> torn_inv (nd e) (inherited (ref1 e)) 2 s.
Proof.
  intros T H. induction H as [f M|f s sf s' H IH R E|f s o f' H IH G E]; auto.
  - apply torn_empty.
  - destruct (mesh_good _ _ _ _ _ (history_mesh _ _ _ _ _ _ H)) as [_ [M2 _]].
    destruct (torn_distribute periodic e f sf s T M2 IH) as [s2 [E2 [I2 _]]]. congruence.
Qed.

(** * C91, C92: assembling and solving succeed *)
From Coq Require Import List Arith Bool Lia QArith Qabs Lqa.
From Verif Require Import Tree Forest SpecForest Geom SpecGeom QuadGeomFacts Solver SolverFacts Dcel SpecDcel Quad SpecQuad QuadFacts QuadInv QuadHist QuadCoords QuadStart QuadUniq Prop_QuadMesh
  Fem SpecFem ShapeFacts Dof SpecDof Dof2 SpecDof2 Dof2Hist SpecHang Basis Assemble SpecAssemble Region SpecRegion Problem2 SpecProblem2 Problem2Facts Problem2Main DofVert2 SpecDofVert2 Poly2Facts SpecInterp2 SpecExact2 Exact2Facts
  Hang SpecHang HangGeo DofVert Dirichlet1 DofVert2 Prop_Hang Prop_Balance Prop_Dof2 Prop_Solution2 Prop_Dirichlet2 FlatFacts SpecPoisson2 Prop_Exact2 SpecSolver AssembleFacts AssembleCells AssembleMain Prop_Regular2.
From Verif Require SpecExact Prop_Assemble Prop_Poisson2 Prop_Problem2.
From Verif Require Import Nodal Nodal1 Kernel SpecKernel.
Import ListNotations.
Open Scope Q_scope.
Lemma total_of_definite pts faces m0 m hl vl e s dv sf horder bases crule erule norm terms ps marker df solver order keep st :
  let M := Region.mkR m (nh (hp m0)) hl vl in
  mesh_history pts faces m0 m -> good_faces pts faces -> situation pts faces e m s sf horder -> vertex_history2 edit pts faces e m s dv ->
  (forall p k d, sub_leaf (cells m) sf p -> dof_at s p k d -> has_vertex2 dv d) ->
  Forall derivative_ok bases -> rules_ok crule erule -> Forall (term_ok2 e M sf s bases) terms -> (forall p, In p ps <-> sub_leaf (cells m) sf p) ->
  In 1%nat (map (fun t => form_dim2 (fst t)) terms) -> In 2%nat (map (fun t => form_dim2 (fst t)) terms) -> SpecExact.complete_spsolve solver ->
  lists_sets order -> SpecAssemble.canonical order -> df <> DSame2 -> proper_data2 df ->
  (forall d v, conditioned2 M e s sf marker true d v -> ~ hangs (face_adj faces) (cells m) sf e s d) -> st sf = None ->
  (forall z Z, represents2 e m sf s z Z -> continuous (face_adj faces) (cells m) sf e s z ->
     (forall v p i, sub_leaf (cells m) sf p -> boundary_vertex M sf marker v p i -> Z V0 p (corner i) == 0) ->
     bilinear_value2 M crule erule norm bases terms ps Z Z == 0 -> forall p k d, sub_leaf (cells m) sf p -> dof_at s p k d -> z d == 0) ->
  (exists p k j r d v, sub_leaf (cells m) sf p /\ dof_at s p k r /\ dof_at s p j d /\ conditioned2 M e s sf marker true d v /\
     (forall v', ~ conditioned2 M e s sf marker true r v') /\ ~ hangs (face_adj faces) (cells m) sf e s r) ->
  exists dir H cls N, add_dirichlet2 e M s dv marker df true sf [] = Ok dir /\ get_hanging horder e m s sf st = Ok H /\
    problem_cells2 e M s bases crule erule norm (map fst terms) ps = Ok cls /\
    forall fuel, (N <= fuel)%nat -> exists af ar u, assemble order (as_pairs H) dir fuel keep cls (init_forms (map (fun t => form_dim2 (fst t)) terms)) = Ok (af, ar) /\
      solve solver (seq 0 (dcount s)) (as_pairs H) dir ar = Ok u.
Proof.
  intros M MH GF SI VH HV DB RO TK PS I1 I2 SC LS CO NS PD NH ES DFN FR.
  pose proof SI as [_ [T [Rt [_ [FS _]]]]]. assert (FI : forall p, sub_leaf (cells m) sf p -> filled (n_dofs D2 e) s p) by (intros p' [n [En [Fn _]]]; apply FS; exists n; auto).
  destruct (C87_conditions pts faces m0 m hl vl e s dv sf marker df true [] MH VH Rt FI HV NS PD (NoDup_nil _)) as [dir [EA [_ [_ [_ C3]]]]]. fold M in EA, C3.
  destruct (Prop_Problem2.C86_forms pts faces m0 M sf e s bases crule erule norm terms ps MH GF FI DB RO TK (fun p I => proj1 (PS p) I)) as [cls [EP [P1 [P2 _]]]].
  destruct (C51_continuous pts faces e m s sf horder st SI ES) as [H [EH _]].
  assert (UN : exists d, cell_dof cls d /\ unconstrained (as_pairs H) dir d).
  { destruct FR as [p [k [j [r [d [v [Lp [Dr [Dd [Cd [Nr Hr]]]]]]]]]]]. exists r. apply in_map_iff in I2. destruct I2 as [t [Et It]]. unfold form_dim2 in Et.
    destruct (f2_test (fst t)) as [a|] eqn:Ea; [|discriminate Et]. destruct (f2_trial (fst t)) as [b|] eqn:Eb; [|discriminate Et].
    destruct (cell_has2 e M s bases crule erule norm (map fst terms) ps cls p (fst t) a b EP (proj2 (PS p) Lp) (in_map fst _ _ It) Ea Eb) as [c [ds [B [Ic [If Ed]]]]].
    destruct (cell_dofs_list s p _ (FI p Lp)) as [ds' [Ed' [_ [_ LD]]]]. assert (ds' = ds) by congruence. subst ds'.
    split; [exists c, (Bilinear ds ds B); split; [exact Ic|]; split; [exact If|]; cbn; apply (nth_error_In ds k); apply LD; exact Dr|]. split.
    - intros X. apply Hr. apply (C51_which pts faces e m s sf horder st H SI ES EH r). unfold as_pairs in X. rewrite map_map in X. exact X.
    - intros X. apply C3 in X. destruct X as [[v' C]|[]]. exact (Nr v' C). }
  destruct (Prop_Assemble.C43_total order (as_pairs H) dir keep _ cls LS P1 P2 (C52_acyclic pts faces e m s sf horder st H SI ES EH)) as [N HN]; [|exact UN|].
  { apply Forall_forall. intros k Ik. apply in_map_iff in Ik. destruct Ik as [t' [<- _]]. unfold form_dim2. destruct (f2_test (fst t')), (f2_trial (fst t')); lia. }
  exists dir, H, cls, N. split; [exact EA|]. split; [exact EH|]. split; [exact EP|]. intros fuel HF. destruct (HN fuel HF) as [[af ar] EM].
  destruct (returns_of_definite pts faces m0 m hl vl e s dv sf horder bases crule erule norm terms ps marker df dir solver order fuel keep cls af ar H st
    MH GF SI VH HV DB RO TK PS I1 I2 SC LS CO NS PD NH EA ES EH EP EM DFN FR) as [u EU]. exists af, ar, u. split; [exact EM|exact EU].
Qed.
(** C91: the conditions, the constraints, the local forms and the arrays are computed without errors, and solve returns *)
Theorem C91_total pts faces m0 m hl vl e s dv sf horder bases crule erule norm terms ps marker df solver order keep st :
  let M := Region.mkR m (nh (hp m0)) hl vl in
  mesh_history pts faces m0 m -> good_faces pts faces -> situation pts faces e m s sf horder -> vertex_history2 edit pts faces e m s dv ->
  (forall p k d, sub_leaf (cells m) sf p -> dof_at s p k d -> has_vertex2 dv d) ->
  Forall derivative_ok bases -> rules_ok crule erule -> Forall (term_ok2 e M sf s bases) terms -> (forall p, In p ps <-> sub_leaf (cells m) sf p) ->
  In 1%nat (map (fun t => form_dim2 (fst t)) terms) -> In 2%nat (map (fun t => form_dim2 (fst t)) terms) -> SpecExact.complete_spsolve solver ->
  lists_sets order -> SpecAssemble.canonical order -> df <> DSame2 -> proper_data2 df ->
  (forall d v, conditioned2 M e s sf marker true d v -> ~ hangs (face_adj faces) (cells m) sf e s d) -> st sf = None ->
  positive_rules crule erule -> (forall y, 0 <= norm y) -> resolves2 crule (S (degree e)) -> nonneg_terms m sf bases terms -> positive_term m sf bases terms V0 ->
  (exists p k j r d v, sub_leaf (cells m) sf p /\ dof_at s p k r /\ dof_at s p j d /\ conditioned2 M e s sf marker true d v /\
     (forall v', ~ conditioned2 M e s sf marker true r v') /\ ~ hangs (face_adj faces) (cells m) sf e s r) ->
  exists dir H cls N, add_dirichlet2 e M s dv marker df true sf [] = Ok dir /\ get_hanging horder e m s sf st = Ok H /\
    problem_cells2 e M s bases crule erule norm (map fst terms) ps = Ok cls /\
    forall fuel, (N <= fuel)%nat -> exists af ar u, assemble order (as_pairs H) dir fuel keep cls (init_forms (map (fun t => form_dim2 (fst t)) terms)) = Ok (af, ar) /\
      solve solver (seq 0 (dcount s)) (as_pairs H) dir ar = Ok u.
Proof.
  intros M MH GF SI VH DV DB RO TK PS I1 I2 SC LS CO NS PD NH ES PW PN RS NN PT FR.
  assert (FI : forall p, sub_leaf (cells m) sf p -> filled (n_dofs D2 e) s p).
  { pose proof SI as [_ [_ [_ [_ [FS _]]]]]. intros p [n [En [Fn _]]]. apply FS. exists n. auto. }
  apply (total_of_definite pts faces m0 m hl vl e s dv sf horder bases crule erule norm terms ps marker df solver order keep st
    MH GF SI VH DV DB RO TK PS I1 I2 SC LS CO NS PD NH ES); fold M; [|exact FR]. intros z Z RZ CZ BZ Z0. exact (proj1 (C91_definite pts faces m0 M e s sf bases crule erule norm terms ps z Z MH GF FI RO PW PN RS NN PT PS RZ Z0)).
Qed.
Print Assumptions C91_total.
(** C92: the conditions, the constraints, the local forms and the arrays are computed without errors, and solve returns *)
Theorem C92_total pts faces m0 m hl vl e s dv sf horder bases crule erule norm terms ps marker df solver order keep st :
  let M := Region.mkR m (nh (hp m0)) hl vl in
  mesh_history pts faces m0 m -> good_faces pts faces -> situation pts faces e m s sf horder -> vertex_history2 edit pts faces e m s dv ->
  (forall p k d, sub_leaf (cells m) sf p -> dof_at s p k d -> has_vertex2 dv d) ->
  Forall derivative_ok bases -> rules_ok crule erule -> Forall (term_ok2 e M sf s bases) terms -> (forall p, In p ps <-> sub_leaf (cells m) sf p) ->
  In 1%nat (map (fun t => form_dim2 (fst t)) terms) -> In 2%nat (map (fun t => form_dim2 (fst t)) terms) -> SpecExact.complete_spsolve solver ->
  lists_sets order -> SpecAssemble.canonical order -> df <> DSame2 -> proper_data2 df ->
  (forall d v, conditioned2 M e s sf marker true d v -> ~ hangs (face_adj faces) (cells m) sf e s d) -> st sf = None ->
  positive_rules crule erule -> (forall y, 0 <= norm y) -> resolves2 crule (S (degree e)) -> nonneg_terms m sf bases terms -> positive_term m sf bases terms (V1 0) -> positive_term m sf bases terms (V1 1) -> anchored faces M sf marker ->
  (exists p k j r d v, sub_leaf (cells m) sf p /\ dof_at s p k r /\ dof_at s p j d /\ conditioned2 M e s sf marker true d v /\
     (forall v', ~ conditioned2 M e s sf marker true r v') /\ ~ hangs (face_adj faces) (cells m) sf e s r) ->
  exists dir H cls N, add_dirichlet2 e M s dv marker df true sf [] = Ok dir /\ get_hanging horder e m s sf st = Ok H /\
    problem_cells2 e M s bases crule erule norm (map fst terms) ps = Ok cls /\
    forall fuel, (N <= fuel)%nat -> exists af ar u, assemble order (as_pairs H) dir fuel keep cls (init_forms (map (fun t => form_dim2 (fst t)) terms)) = Ok (af, ar) /\
      solve solver (seq 0 (dcount s)) (as_pairs H) dir ar = Ok u.
Proof.
  intros M MH GF SI VH DV DB RO TK PS I1 I2 SC LS CO NS PD NH ES PW PN RS NN PX PY AN FR.
  assert (FI : forall p, sub_leaf (cells m) sf p -> filled (n_dofs D2 e) s p).
  { pose proof SI as [_ [_ [_ [_ [FS _]]]]]. intros p [n [En [Fn _]]]. apply FS. exists n. auto. }
  apply (total_of_definite pts faces m0 m hl vl e s dv sf horder bases crule erule norm terms ps marker df solver order keep st
    MH GF SI VH DV DB RO TK PS I1 I2 SC LS CO NS PD NH ES); fold M; [|exact FR]. intros z Z RZ CZ BZ Z0. exact (proj1 (Prop_Poisson2.C92_definite pts faces m0 M e s sf bases crule erule norm terms ps marker z Z MH GF FI RO PW PN RS NN PX PY PS AN RZ CZ BZ Z0)).
Qed.
Print Assumptions C92_total.
(** ** The Laplace equation on the refined mesh of C92_returns_case *)
From Verif Require Import Prop_Poisson2 Prop_Problem2 Region SpecRegion.
From Verif Require ForestFacts Prop_Grid.
Open Scope Q_scope.
Example C92_total_case : exists m0 m s v ps, let M := rx_M m0 m in
  mesh_history (grid_points 0 2 0 1 2 1) (grid_faces 2 1) m0 m /\ situation (grid_points 0 2 0 1 2 1) (grid_faces 2 1) Q1 m s None (fun l => l) /\ length ps = 5%nat /\
  forall solver, SpecExact.complete_spsolve solver ->
  exists dir H cls N, add_dirichlet2 Q1 M s v None (DMap2 fst) true None [] = Ok dir /\ get_hanging (fun l => l) Q1 m s None (fun _ => None) = Ok H /\
    problem_cells2 Q1 M s rx_bases xe_crule Prop_Problem2.qx_erule Prop_Problem2.qx_norm (map fst pe_terms) ps = Ok cls /\
    forall fuel, (N <= fuel)%nat -> exists af ar u, assemble Prop_Assemble.sorted_set (as_pairs H) dir fuel true cls (init_forms (map (fun t => form_dim2 (fst t)) pe_terms)) = Ok (af, ar) /\
      solve solver (seq 0 (dcount s)) (as_pairs H) dir ar = Ok u.
Proof.
  pose proof re_run as E. destruct (vgrid 2 1 2 1 Q1 case_cs) as [[m0 [m [s v]]]|] eqn:EV; [|discriminate E]. unfold re_check in E.
  destruct (vgrid_history 2 1 2 1 Q1 case_cs m0 m s v (grid_ok 2 1 2 1) (Prop_QuadMesh.grid_quads 2 1) EV) as [[m1 [MH ->]] VH].
  destruct (vgrid_filled 2 1 2 1 Q1 (Some (CSplit None [1%nat])) m0 m s v EV ltac:(discriminate)) as [F1 F2].
  assert (SI := vgrid_situation 2 1 2 1 Q1 (Some (CSplit None [1%nat])) m0 m s v eq_refl EV ltac:(discriminate)).
  destruct (add_dirichlet2 Q1 (rx_M m0 m) s v None (DMap2 fst) true None []) as [dir|] eqn:ED; [|discriminate E].
  destruct (get_hanging (fun l => l) Q1 m s None (fun _ => None)) as [H|] eqn:EH; [|discriminate E].
  set (ps := map fst (fget_leaves (cells m) None None BreadthFirst)) in E.
  destruct (problem_cells2 _ _ _ _ _ _ _ _ _) as [cls|] eqn:EP; [|discriminate E].
  destruct (assemble _ _ _ _ _ _ _) as [[af ar]|] eqn:EM; [|discriminate E].
  apply andb_true_iff in E. destruct E as [E EF]. apply andb_true_iff in E. destruct E as [E E3]. apply andb_true_iff in E. destruct E as [E1 E2].
  apply Nat.eqb_eq in E1, E2, E3.
  assert (GF := Prop_Problem2.grid_good 2 1 0 2 0 1 eq_refl eq_refl).
  assert (PS : forall p, In p ps <-> sub_leaf (cells m) None p).
  { intros p. unfold ps. rewrite in_map_iff. split.
    - intros [[p' n] [Ep Ip]]. cbn [fst] in Ep. subst p'. apply ForestFacts.in_fget_leaves in Ip. exists n. tauto.
    - intros [n [Fn Ln]]. exists (p, n). split; auto. apply ForestFacts.in_fget_leaves. simpl. tauto. }
  assert (RO : rules_ok xe_crule Prop_Problem2.qx_erule).
  { split; (split; [reflexivity|]); intros x I; cbn in I; [destruct I as [<-|[<-|[<-|[<-|[]]]]]; split; cbn; lra|destruct I as [<-|[<-|[<-|[]]]]; split; lra]. }
  assert (PW : positive_rules xe_crule Prop_Problem2.qx_erule).
  { split; intros x I; cbn in I; [destruct I as [<-|[<-|[<-|[<-|[]]]]]; lra|destruct I as [<-|[<-|[<-|[]]]]; lra]. }
  assert (PN : forall y, 0 <= Prop_Problem2.qx_norm y).
  { intros y. unfold Prop_Problem2.qx_norm. pose proof (Qabs_nonneg (fst y)). pose proof (Qabs_nonneg (snd y)). lra. }
  assert (RS : resolves2 xe_crule (S (degree Q1))).
  { apply (C91_resolves xe_crule 2 [0; 1%Q] [0; 1%Q]); [cbn; lia|cbn; lia| | |].
    - intros i j Hij. cbn in Hij. assert (i = 0 /\ j = 1)%nat as [-> ->] by lia. cbn. lra.
    - intros i j Hij. cbn in Hij. assert (i = 0 /\ j = 1)%nat as [-> ->] by lia. cbn. lra.
    - intros x y [<-|[<-|[]]] [<-|[<-|[]]]; cbn; tauto. }
  assert (DB : Forall derivative_ok rx_bases) by (repeat (constructor; [cbn; auto; lia|]); constructor).
  assert (NN : nonneg_terms m None rx_bases (pe_terms)).
  { intros t i j It Ei Ej. cbn in It. destruct It as [<-|[<-|[<-|[<-|[]]]]]; cbn in Ei, Ej; try discriminate Ej; injection Ei as <-; injection Ej as <-; (split; [reflexivity|]); intros; cbn; lra. }
  assert (PX0 : positive_term m None rx_bases pe_terms (V1 0)).
  { exists (mkForm2 rx_one (Some 0%nat) (Some 0%nat) Dx2 None, fun _ _ => 1), 0%nat. split; [cbn; tauto|]. do 5 (split; [reflexivity|]). intros; cbn; lra. }
  assert (PY0 : positive_term m None rx_bases pe_terms (V1 1)).
  { exists (mkForm2 rx_one (Some 1%nat) (Some 1%nat) Dx2 None, fun _ _ => 1), 1%nat. split; [cbn; tauto|]. do 5 (split; [reflexivity|]). intros; cbn; lra. }
  assert (AN : anchored (grid_faces 2 1) (rx_M m0 m) None None).
  { apply (C92_grid 2 1 0 2 0 1 m0 m (fun _ _ => false) (fun _ _ => false) Q1 s None (fun l => l) (Nat.lt_0_succ _) (Nat.lt_0_succ _) eq_refl eq_refl MH SI).
    intros i Li. pose proof (history_minv _ _ _ _ MH) as Mi. assert (Hi : here m [i]) by (apply (m_roots _ _ _ Mi); exact Li). apply here_fget in Hi. destruct Hi as [n En]. exists n. split; [exact En|exact Logic.I]. }
  assert (VR : vertex_history2 edit (grid_points 0 2 0 1 2 1) (grid_faces 2 1) Q1 m s v) by exact VH.
  assert (FI : forall p, sub_leaf (cells m) None p -> filled (n_dofs D2 Q1) s p).
  { pose proof SI as [_ [_ [_ [_ [FS _]]]]]. intros p [n [En [Fn _]]]. apply FS. exists n. auto. }
  assert (NH := fun d v0 C => C88_grid 2 1 0 2 0 1 m0 m (fun _ _ => false) (fun _ _ => false) Q1 s None (fun l => l) None d v0 (Nat.lt_0_succ _) (Nat.lt_0_succ _) eq_refl eq_refl MH SI C).
  assert (R : submesh_rooted (cells m) None) by (pose proof SI as [_ [_ [R _]]]; exact R).
  exists m0, m, s, v, ps. cbv zeta. do 3 (split; [assumption|]). intros solver SC.
  apply (C92_total _ _ m0 m (fun _ _ => false) (fun _ _ => false) Q1 s v None (fun l => l) rx_bases xe_crule Prop_Problem2.qx_erule Prop_Problem2.qx_norm pe_terms ps None (DMap2 fst) solver Prop_Assemble.sorted_set true (fun _ => None)
      MH GF SI VR F2 DB RO (pe_ok Q1 (rx_M m0 m) None s) PS ltac:(cbn; tauto) ltac:(cbn; tauto) SC Prop_Assemble.sorted_lists Prop_Assemble.sorted_canonical ltac:(discriminate) (fun x y E => proj1 E) NH eq_refl PW PN RS NN PX0 PY0 AN).
    destruct (C87_conditions _ _ m0 m (fun _ _ => false) (fun _ _ => false) Q1 s v None None (DMap2 fst) true [] MH VR R FI F2 ltac:(discriminate) (fun x y E => proj1 E) (NoDup_nil _)) as [dir' [E1' [_ [_ [_ C3]]]]].
    assert (dir' = dir) by (change (Region.mkR m (nh (hp m0)) (fun _ _ => false) (fun _ _ => false)) with (rx_M m0 m) in E1'; congruence). subst dir'.
    apply existsb_exists in EF. destruct EF as [p [Ip Fp]]. apply PS in Ip. unfold re_free in Fp. destruct (cell_dofs_list s p _ (FI p Ip)) as [ds [Ed [_ [_ LD]]]]. rewrite Ed in Fp.
    apply andb_true_iff in Fp. destruct Fp as [Fr Fd]. apply existsb_exists in Fr, Fd. destruct Fr as [r [Ir Fr]], Fd as [d [Id Fd]]. apply andb_true_iff in Fr. destruct Fr as [Fr1 Fr2]. apply negb_true_iff in Fr1, Fr2.
    apply re_has_in in Fd. apply C3 in Fd. destruct Fd as [[v1 C]|[]]. apply In_nth_error in Ir, Id. destruct Ir as [k Ik], Id as [j Ij].
    exists p, k, j, r, d, v1. split; [exact Ip|]. split; [apply LD; exact Ik|]. split; [apply LD; exact Ij|]. split; [exact C|]. split.
    + intros v' C'. assert (X : re_has (map fst dir) r = true) by (apply re_has_in; apply C3; left; exists v'; exact C'). congruence.
    + intros Hr. assert (X : re_has (map fst H) r = true) by (apply re_has_in; apply (C51_which _ _ Q1 m s None (fun l => l) (fun _ => None) H SI eq_refl EH r); exact Hr). congruence.
Qed.
Print Assumptions C92_total_case.

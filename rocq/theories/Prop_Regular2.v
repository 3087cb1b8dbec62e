(** * C91, C92: the system matrix of a definite problem is nonsingular (hanging nodes, Dirichlet conditions) *)
From Coq Require Import List Arith Bool Lia QArith Qabs Lqa.
From Verif Require Import Tree Forest SpecForest Geom SpecGeom QuadGeomFacts Solver SolverFacts Dcel SpecDcel Quad SpecQuad QuadFacts QuadInv QuadHist QuadCoords QuadStart QuadUniq Prop_QuadMesh
  Fem SpecFem ShapeFacts Dof SpecDof Dof2 SpecDof2 Dof2Hist SpecHang Basis Assemble SpecAssemble Region SpecRegion Problem2 SpecProblem2 Problem2Facts Problem2Main DofVert2 SpecDofVert2 Poly2Facts SpecInterp2 SpecExact2 Exact2Facts
  Hang SpecHang HangGeo DofVert Dirichlet1 DofVert2 Prop_Hang Prop_Balance Prop_Dof2 Prop_Solution2 Prop_Dirichlet2 FlatFacts SpecPoisson2 Prop_Exact2 SpecSolver AssembleFacts AssembleCells AssembleMain.
From Verif Require SurfFacts SpecExact Prop_Assemble Prop_Poisson2 Prop_RegionMark Node2Facts SurfFacts.
Import ListNotations.
Open Scope Q_scope.

(** ** The constraints *)
Definition ext (hng : list (nat * list (nat * Q))) (w : vec) : vec := fun d => match lookup d hng with Some l => combination w l | None => w d end.
Lemma comb_ext w v l : (forall p, In p l -> w (fst p) == v (fst p)) -> combination w l == combination v l.
Proof.
  unfold combination. induction l as [|p l IH]; intros H; [reflexivity|]. cbn [map fold_right]. rewrite IH by (intros q Iq; apply H; right; exact Iq). rewrite (H p) by (left; reflexivity). reflexivity.
Qed.
Lemma comb_plus w v l : combination (fun i => w i + v i) l == combination w l + combination v l.
Proof. unfold combination. induction l as [|p l IH]; [cbn; ring|]. cbn [map fold_right]. rewrite IH. ring. Qed.
Section Core.
Context (n : nat) (cells : list (nat * list local)) (hng : list (nat * list (nat * Q))) (dir : list (nat * Q)) (WP : well_posed n cells hng dir).
Lemma ext_free w d : ~ In d (map fst hng) -> ext hng w d = w d.
Proof. intros N. unfold ext. apply lookup_none in N. rewrite N. reflexivity. Qed.
Lemma ext_hang w h : In h hng -> ext hng w (fst h) == combination (ext hng w) (snd h).
Proof.
  intros Ih. destruct WP as [_ [WH [_ [NH _]]]]. unfold ext at 1. destruct h as [d l]. cbn [fst snd]. rewrite (@lookup_nodup _ d hng l NH Ih).
  apply comb_ext. intros p Ip. destruct (WH _ Ih) as [_ W]. destruct (W p Ip) as [_ N]. rewrite ext_free by exact N. reflexivity.
Qed.
Lemma ext_test w : (forall d, In d (map fst dir) -> w d == 0) -> test_space hng dir (ext hng w).
Proof.
  intros Z c I. unfold constraints in I. apply in_app_iff in I. destruct WP as [_ [_ [WD _]]]. destruct I as [I|I]; apply in_map_iff in I; destruct I as [h [<- I]]; unfold homogeneous; cbn [c_dof c_supp].
  - apply ext_hang. exact I.
  - rewrite ext_free by (apply (WD h I)). rewrite Z; [reflexivity|]. apply in_map. exact I.
Qed.
Lemma ext_trial : trial_space hng dir (ext hng (dirichlet_values dir)).
Proof.
  intros c I. unfold constraints in I. apply in_app_iff in I. destruct WP as [_ [_ [WD [_ ND]]]]. destruct I as [I|I]; apply in_map_iff in I; destruct I as [h [<- I]]; unfold fulfils; cbn [c_dof c_supp c_aff].
  - rewrite (ext_hang _ _ I). ring.
  - rewrite ext_free by (apply (WD h I)). unfold dirichlet_values. destruct h as [d g]. cbn [fst snd]. rewrite (@lookup_nodup _ d dir g ND I). cbn. ring.
Qed.
Lemma trial_plus x z : trial_space hng dir x -> test_space hng dir z -> trial_space hng dir (fun i => x i + z i).
Proof.
  intros T Z c I. pose proof (T c I) as A. pose proof (Z c I) as B. unfold fulfils, homogeneous in *. rewrite comb_plus, A, B. ring.
Qed.
Lemma rows_in (P : nat -> Prop) d0 d : P d0 -> (forall h p, In h hng -> In p (snd h) -> P (fst p)) -> red hng d0 d -> P d.
Proof.
  intros P0 PH R. induction R as [d|d l p d' E Ip R IH]; [exact P0|]. apply IH. apply AssembleFacts.lookup_in in E. exact (PH (d, l) p E Ip).
Qed.
Lemma core dims order fuel keep af ar A (P : nat -> Prop) : lists_sets order -> SpecAssemble.canonical order -> problem dims cells -> galerkin cells ->
  assemble order hng dir fuel keep cells (init_forms dims) = Ok (af, ar) -> r2 ar = Some A ->
  (forall d, cell_dof cells d -> P d) -> (forall h p, In h hng -> In p (snd h) -> P (fst p)) ->
  (forall z, test_space hng dir z -> over_cells (bilinear_local z z) cells == 0 -> forall d, P d -> z d == 0) ->
  m_cols A = m_rows A /\ SpecExact.nonsingular (length (m_rows A)) (m_mat A).
Proof.
  intros O Ca PR Ga E EA PC PH DF.
  destruct (assembled order hng dir fuel keep dims cells af ar O PR Ga E) as [_ [_ [Hm _]]].
  destruct (Hm A EA) as [[Nr [Nc [Fr [Fc [Sh [Lx Sm]]]]]] [l2 [l3 [El2 [El3 [S2 [S3 X0]]]]]]].
  assert (Erc : m_cols A = m_rows A) by (rewrite El3, El2; apply Ca; intros d; rewrite S2, S3; tauto). split; [exact Erc|].
  assert (RL : forall d, In d (m_rows A) -> P d).
  { intros d I. rewrite El2 in I. apply (proj1 (proj2 (O l2))) in I. apply S2 in I. destruct I as [d0 [I [R _]]].
    apply (rows_in P d0 d); [apply PC; apply (in2_cell cells Ga d0 d0 I)|exact PH|exact R]. }
  intros x Hx. set (rows := m_rows A) in *. set (k := length rows) in *.
  set (w := fun d => sum k (fun i => if (nth i rows 0 =? d)%nat then x i else 0)).
  assert (WR : forall i, (i < k)%nat -> w (nth i rows 0%nat) == x i).
  { intros i Hi. unfold w. rewrite (SolverFacts.sum_one k i); [rewrite Nat.eqb_refl; reflexivity|exact Hi|]. intros j Hj D. destruct (Nat.eqb_spec (nth j rows 0%nat) (nth i rows 0%nat)) as [Eq|_]; [|reflexivity].
    exfalso. apply D. exact (proj1 (NoDup_nth rows 0%nat) Nr j i Hj Hi Eq). }
  assert (WD : forall d, In d (map fst dir) -> w d == 0).
  { intros d I. unfold w. apply SolverFacts.sum_zero. intros i Hi. destruct (Nat.eqb_spec (nth i rows 0%nat) d) as [<-|_]; [|reflexivity]. exfalso.
    rewrite Forall_forall in Fr. exact (proj2 (Fr (nth i rows 0%nat) (nth_In rows 0%nat Hi)) I). }
  set (z := ext hng w). pose proof (ext_test w WD) as TZ. fold z in TZ.
  assert (ZR : forall i, (i < k)%nat -> z (nth i rows 0%nat) == x i).
  { intros i Hi. unfold z. rewrite ext_free; [apply WR; exact Hi|]. rewrite Forall_forall in Fr. exact (proj1 (Fr (nth i rows 0%nat) (nth_In rows 0%nat Hi))). }
  set (y := ext hng (dirichlet_values dir)). pose proof ext_trial as TY. fold y in TY.
  pose proof (Sm z y TZ TY) as H0. pose proof (Sm z _ TZ (trial_plus y z TY TZ)) as H1. rewrite Erc in H0, H1. fold rows k in H0, H1.
  rewrite (Prop_Assemble.over_plus _ _ _ cells (Prop_Assemble.bilinear_plus z y z)) in H1.
  assert (EQ : sum k (fun i => sum k (fun j => z (nth i rows 0%nat) * Solver.entry (m_mat A) i j * (y (nth j rows 0%nat) + z (nth j rows 0%nat)))) ==
    sum k (fun i => sum k (fun j => z (nth i rows 0%nat) * Solver.entry (m_mat A) i j * y (nth j rows 0%nat)))).
  { apply SolverFacts.sum_ext. intros i Hi.
    rewrite (SolverFacts.sum_ext k _ (fun j => z (nth i rows 0%nat) * Solver.entry (m_mat A) i j * y (nth j rows 0%nat) + z (nth i rows 0%nat) * (Solver.entry (m_mat A) i j * x j))).
    - rewrite SolverFacts.sum_plus, SolverFacts.sum_scal. pose proof (Hx i Hi) as Hi0. unfold mulv in Hi0. rewrite Hi0. ring.
    - intros j Hj. rewrite (ZR j Hj). ring. }
  cbv beta in H1. rewrite EQ in H1. assert (ZZ : over_cells (bilinear_local z z) cells == 0) by lra.
  intros i Hi. rewrite <- (ZR i Hi). apply (DF z TZ ZZ). apply RL. apply nth_In. exact Hi.
Qed.
End Core.
From Verif Require Import Node2Facts SpecRegionDof RegionDof.
Open Scope Q_scope.
Lemma test_satisfies u H dir : test_space (as_pairs H) dir u -> satisfies u H.
Proof.
  intros T. apply sat_iff. intros d sup cs I. assert (Ic : In (mkC d (combine sup cs) 0%Q) (constraints (as_pairs H) dir)).
  { unfold constraints. apply in_app_iff. left. apply in_map_iff. exists (d, combine sup cs). split; [reflexivity|]. unfold as_pairs. apply in_map_iff. exists (d, (sup, cs)). auto. }
  exact (T _ Ic).
Qed.
Lemma regular_of_definite pts faces m0 m hl vl e s dv sf horder bases crule erule norm terms ps marker df dir order fuel keep cls af ar H st A :
  let M := Region.mkR m (nh (hp m0)) hl vl in
  mesh_history pts faces m0 m -> good_faces pts faces -> situation pts faces e m s sf horder -> vertex_history2 edit pts faces e m s dv ->
  (forall p k d, sub_leaf (cells m) sf p -> dof_at s p k d -> has_vertex2 dv d) ->
  Forall derivative_ok bases -> rules_ok crule erule -> Forall (term_ok2 e M sf s bases) terms -> (forall p, In p ps <-> sub_leaf (cells m) sf p) ->
  lists_sets order -> SpecAssemble.canonical order -> df <> DSame2 -> proper_data2 df ->
  (forall d v, conditioned2 M e s sf marker true d v -> ~ hangs (face_adj faces) (cells m) sf e s d) ->
  add_dirichlet2 e M s dv marker df true sf [] = Ok dir ->
  st sf = None -> get_hanging horder e m s sf st = Ok H ->
  problem_cells2 e M s bases crule erule norm (map fst terms) ps = Ok cls ->
  assemble order (as_pairs H) dir fuel keep cls (init_forms (map (fun t => form_dim2 (fst t)) terms)) = Ok (af, ar) -> r2 ar = Some A ->
  (forall z Z, represents2 e m sf s z Z -> continuous (face_adj faces) (cells m) sf e s z ->
     (forall v p i, sub_leaf (cells m) sf p -> boundary_vertex M sf marker v p i -> Z V0 p (corner i) == 0) ->
     bilinear_value2 M crule erule norm bases terms ps Z Z == 0 -> forall p k d, sub_leaf (cells m) sf p -> dof_at s p k d -> z d == 0) ->
  m_cols A = m_rows A /\ SpecExact.nonsingular (length (m_rows A)) (m_mat A).
Proof.
  intros M MH GF SI VH HV DB RO TK PS LS CO NS PD NH EA ES EH EP EM HA DFN.
  pose proof SI as [_ [T [Rt [_ [FS _]]]]]. assert (FI : forall p, sub_leaf (cells m) sf p -> filled (n_dofs D2 e) s p) by (intros p [n [En [Fn _]]]; apply FS; exists n; auto).
  destruct (C87_conditions pts faces m0 m hl vl e s dv sf marker df true [] MH VH Rt FI HV NS PD (NoDup_nil _)) as [dir' [E1 [ND [C1 [_ C3]]]]]. fold M in E1, C1, C3. assert (dir' = dir) by congruence. subst dir'.
  destruct (Prop_Problem2.C86_forms pts faces m0 M sf e s bases crule erule norm terms ps MH GF FI DB RO TK (fun p I => proj1 (PS p) I)) as [cls' [E2 [P1 [P2 [P3 [P4 [P5 _]]]]]]]. assert (cls' = cls) by congruence. subst cls'.
  assert (WP : well_posed (dcount s) cls (as_pairs H) dir).
  { apply (C52_well_posed pts faces e m s sf horder st H cls dir SI ES EH); [intros d Hd; destruct (P3 d Hd) as [p [k [_ Dk]]]; eauto|exact ND|].
    intros d Id. apply C3 in Id. destruct Id as [[v C]|[]]. split; [|exact (NH d v C)]. destruct C as [p [k [_ [_ [_ Dk]]]]]. eauto. }
  destruct (C51_continuous pts faces e m s sf horder st SI ES) as [H' [EH' CT]]. assert (H' = H) by congruence. subst H'.
  destruct (C52_solved pts faces e m s sf horder st H SI ES EH) as [_ SO].
  apply (core (dcount s) cls (as_pairs H) dir WP _ order fuel keep af ar A (fun d => exists p k, sub_leaf (cells m) sf p /\ dof_at s p k d) LS CO P1 P2 EM HA).
  - intros d Hd. destruct (P3 d Hd) as [p [k [Ip Dk]]]. exists p, k. split; [|exact Dk]. apply PS. exact Ip.
  - intros h c Ih Ic. unfold as_pairs in Ih. apply in_map_iff in Ih. destruct Ih as [[d [sup cs]] [<- Ih]]. cbn [fst snd] in Ic. destruct c as [a w]. apply in_combine_l in Ic.
    destruct (SO d sup cs Ih) as [_ Za]. exact (proj2 (Za a Ic)).
  - intros z TZ ZZ d [p [k [Lp Dk]]]. assert (CZ : continuous (face_adj faces) (cells m) sf e s z) by (apply CT; apply (test_satisfies _ H dir TZ)).
    destruct (proj1 (Prop_Problem2.C86_functions pts faces m0 m sf e s z MH GF FI)) as [Z RZ]. rewrite (P4 z z Z Z RZ RZ) in ZZ. refine (DFN z Z RZ CZ _ ZZ p k d Lp Dk).
    clear p k d Lp Dk. intros v p i Lp [F [L [h [Si Ev]]]]. pose proof (history_minv _ _ _ _ MH) as Mi. pose proof Si as Si'. apply (is_side_iff _ _ _ _ (m_s _ _ _ Mi)) in Si'. destruct Si' as [_ [Li _]].
    destruct (node2_corner e i T Li) as [Lk Ek]. destruct (FI p Lp) as [l [_ [_ Fk]]]. destruct (Fk i Lk) as [d Dk].
    assert (Ny : nth_error (reference_nodes2 e) i = Some (node2 e i)) by (apply nodes2_nth; exact Lk).
    assert (So : slot_on e m p (Vtx v) false i) by (exists (node2 e i); split; [exact Ny|]; exists i, h; split; [exact Si|split; [exact Ev|exact Ek]]).
    assert (Sh : shape_is m p (cell_quad m p)) by exact (proj1 (leaf_shape M sf MH GF p Lp)).
    assert (Un : in_unit (node2 e i)) by (apply (proj2 (Prop_Shape.C31_lagrange_2d e) i _ Ny)).
    destruct (RZ p _ (corner i) Lp Sh (unit_corner' i)) as [VA _]. destruct (RZ p _ (node2 e i) Lp Sh Un) as [VB _].
    assert (EV : Z V0 p (corner i) == Z V0 p (node2 e i)).
    { apply (CZ p p (corner i) (node2 e i) _ _ Lp Lp (unit_corner' i) Un); [|exact VA|exact VB]. constructor. apply SurfFacts.root_peq. apply SurfFacts.peq_s. exact Ek. }
    rewrite EV, (value_at_slot e s z p i d _ _ Dk Ny VB).
    assert (Id : In d (map fst dir)). { apply C3. left. exists v, p, i. split; [exact F|]. split; [exact L|]. split; [exact So|exact Dk]. }
    apply in_map_iff in Id. destruct Id as [[d' g] [<- Id]]. assert (Q := TZ (mkC d' [] g)). unfold homogeneous in Q. cbn in Q. apply Q. unfold constraints. apply in_app_iff. right. apply in_map_iff. exists (d', g). auto.
Qed.
From Verif Require Import Nodal Nodal1 Kernel SpecKernel.
From Verif Require DofFacts NodalFacts ProblemFacts.
Open Scope Q_scope.
Lemma cell_has2 e M s bases crule erule norm fms ps cls p fm i j : problem_cells2 e M s bases crule erule norm fms ps = Ok cls -> In p ps -> In fm fms -> f2_test fm = Some i -> f2_trial fm = Some j ->
  exists c ds B, In c cls /\ In (Bilinear ds ds B) (snd c) /\ cell_dofs1 s p = Some ds.
Proof.
  intros E Ip If Et Eu. unfold problem_cells2 in E. apply NodalFacts.mr_inv in E.
  assert (IC : exists k, In (k, p) (combine (seq 0 (length ps)) ps)).
  { apply (In_nth _ _ []) in Ip. destruct Ip as [k [Lk Ek]]. exists k. replace (k, p) with (nth k (combine (seq 0 (length ps)) ps) (0%nat, [])); [apply nth_In; rewrite combine_length, seq_length, Nat.min_id; exact Lk|].
    rewrite combine_nth by (rewrite seq_length; reflexivity). rewrite seq_nth by exact Lk. rewrite Ek. reflexivity. }
  destruct IC as [k IC]. apply In_nth_error in IC. destruct IC as [q Em]. destruct (ProblemFacts.f2_nth _ _ _ q _ E Em) as [c [Ec Hc]]. cbn [fst snd] in Hc.
  destruct (cell_locals2 e M s bases crule erule norm fms p) as [ls|] eqn:El; [|discriminate Hc]. cbn [bind] in Hc. injection Hc as <-. apply nth_error_In in Ec.
  unfold cell_locals2 in El. destruct (cell_dofs1 s p) as [ds|]; [|discriminate El]. apply NodalFacts.mr_inv in El.
  apply In_nth_error in If. destruct If as [q' Em']. destruct (ProblemFacts.f2_nth _ _ _ q' _ El Em') as [loc [Eloc Hl]]. apply nth_error_In in Eloc.
  unfold local_form2 in Hl. rewrite Et, Eu in Hl. destruct (map_res _ (form_spots M crule erule norm fm p)) as [rs|]; [|discriminate Hl]. cbn [bind] in Hl.
  destruct (eval_bilinear (f2_kernel fm) i j (n_dofs D2 e) (n_dofs D2 e) rs) as [l|]; [|discriminate Hl]. cbn [bind] in Hl.
  exists (k, ls), ds. eexists. split; [exact Ec|]. split; [|reflexivity]. cbn [snd]. apply (f_equal (fun r => match r with Ok l => l | Err _ => loc end)) in Hl. cbn beta iota in Hl. subst loc. exact Eloc.
Qed.
(** solve returns, if the solver does for nonsingular systems and some leaf has a dof with a condition
    and a dof that neither has one nor hangs *)
Lemma returns_of_definite pts faces m0 m hl vl e s dv sf horder bases crule erule norm terms ps marker df dir solver order fuel keep cls af ar H st :
  let M := Region.mkR m (nh (hp m0)) hl vl in
  mesh_history pts faces m0 m -> good_faces pts faces -> situation pts faces e m s sf horder -> vertex_history2 edit pts faces e m s dv ->
  (forall p k d, sub_leaf (cells m) sf p -> dof_at s p k d -> has_vertex2 dv d) ->
  Forall derivative_ok bases -> rules_ok crule erule -> Forall (term_ok2 e M sf s bases) terms -> (forall p, In p ps <-> sub_leaf (cells m) sf p) ->
  In 1%nat (map (fun t => form_dim2 (fst t)) terms) -> In 2%nat (map (fun t => form_dim2 (fst t)) terms) ->
  SpecExact.complete_spsolve solver -> lists_sets order -> SpecAssemble.canonical order -> df <> DSame2 -> proper_data2 df ->
  (forall d v, conditioned2 M e s sf marker true d v -> ~ hangs (face_adj faces) (cells m) sf e s d) ->
  add_dirichlet2 e M s dv marker df true sf [] = Ok dir ->
  st sf = None -> get_hanging horder e m s sf st = Ok H ->
  problem_cells2 e M s bases crule erule norm (map fst terms) ps = Ok cls ->
  assemble order (as_pairs H) dir fuel keep cls (init_forms (map (fun t => form_dim2 (fst t)) terms)) = Ok (af, ar) ->
  (forall z Z, represents2 e m sf s z Z -> continuous (face_adj faces) (cells m) sf e s z ->
     (forall v p i, sub_leaf (cells m) sf p -> boundary_vertex M sf marker v p i -> Z V0 p (corner i) == 0) ->
     bilinear_value2 M crule erule norm bases terms ps Z Z == 0 -> forall p k d, sub_leaf (cells m) sf p -> dof_at s p k d -> z d == 0) ->
  (exists p k j r d v, sub_leaf (cells m) sf p /\ dof_at s p k r /\ dof_at s p j d /\ conditioned2 M e s sf marker true d v /\
     (forall v', ~ conditioned2 M e s sf marker true r v') /\ ~ hangs (face_adj faces) (cells m) sf e s r) ->
  exists u, solve solver (seq 0 (dcount s)) (as_pairs H) dir ar = Ok u.
Proof.
  intros M MH GF SI VH HV DB RO TK PS I1 I2 SC LS CO NS PD NH EA ES EH EP EM DFN [p [k [j [r [d [v [Lp [Dr [Dd [Cd [Nr Hr]]]]]]]]]]].
  pose proof SI as [_ [T [Rt [_ [FS _]]]]]. assert (FI : forall p, sub_leaf (cells m) sf p -> filled (n_dofs D2 e) s p) by (intros p' [n [En [Fn _]]]; apply FS; exists n; auto).
  destruct (C87_conditions pts faces m0 m hl vl e s dv sf marker df true [] MH VH Rt FI HV NS PD (NoDup_nil _)) as [dir' [E1 [ND [C1 [_ C3]]]]]. fold M in E1, C1, C3. assert (dir' = dir) by congruence. subst dir'.
  destruct (Prop_Problem2.C86_forms pts faces m0 M sf e s bases crule erule norm terms ps MH GF FI DB RO TK (fun p I => proj1 (PS p) I)) as [cls' [E2 [P1 [P2 [P3 [P4 [P5 _]]]]]]]. assert (cls' = cls) by congruence. subst cls'.
  assert (WP : well_posed (dcount s) cls (as_pairs H) dir).
  { apply (C52_well_posed pts faces e m s sf horder st H cls dir SI ES EH); [intros d' Hd; destruct (P3 d' Hd) as [p' [k' [_ Dk']]]; eauto|exact ND|].
    intros d' Id. apply C3 in Id. destruct Id as [[v' C]|[]]. split; [|exact (NH d' v' C)]. destruct C as [p' [k' [_ [_ [_ Dk']]]]]. eauto. }
  destruct (situation_facts _ _ _ _ _ _ _ SI) as [_ [_ [_ [_ [_ BD]]]]].
  assert (Hn : (0 < dcount s)%nat) by (apply DofFacts.slot_dof in Dr; specialize (BD r p k Dr); lia).
  destruct (assembled order (as_pairs H) dir fuel keep _ cls af ar LS P1 P2 EM) as [_ [_ [Hm [_ [_ K2]]]]].
  destruct (r2 ar) as [A|] eqn:HA; [|exfalso; apply (proj1 K2 eq_refl); exact I2].
  pose proof (regular_of_definite pts faces m0 m hl vl e s dv sf horder bases crule erule norm terms ps marker df dir order fuel keep cls af ar H st A
    MH GF SI VH HV DB RO TK PS LS CO NS PD NH EA ES EH EP EM HA DFN) as [Erc NSg].
  apply (Prop_Assemble.C44_total solver order (dcount s) _ cls (as_pairs H) dir fuel keep af ar A LS CO P1 I1 I2 P2 Hn WP EM).
  - apply in_map_iff in I2. destruct I2 as [t [Et It]]. unfold form_dim2 in Et.
    destruct (f2_test (fst t)) as [a|] eqn:Ea; [|discriminate Et]. destruct (f2_trial (fst t)) as [b|] eqn:Eb; [|discriminate Et].
    destruct (cell_has2 e M s bases crule erule norm (map fst terms) ps cls p (fst t) a b EP (proj2 (PS p) Lp) (in_map fst _ _ It) Ea Eb) as [c [ds [B [Ic [If Ed]]]]].
    destruct (cell_dofs_list s p _ (FI p Lp)) as [ds' [Ed' [_ [_ LD]]]]. assert (ds' = ds) by congruence. subst ds'.
    exists c, ds, ds, B, r, d. split; [exact Ic|]. split; [exact If|].
    split; [apply (nth_error_In ds k); apply LD; exact Dr|]. split; [apply (nth_error_In ds j); apply LD; exact Dd|]. split.
    + split.
      * intros X. apply Hr. apply (C51_which pts faces e m s sf horder st H SI ES EH r). unfold as_pairs in X. rewrite map_map in X. exact X.
      * intros X. apply C3 in X. destruct X as [[v' C]|[]]. exact (Nr v' C).
    + apply C3. left. exists v. exact Cd.
  - exact HA. 
  - intros b Sb. destruct (Hm A eq_refl) as [[_ [_ [_ [_ [Sh _]]]]] _]. rewrite Erc in Sh. exact (SC (length (m_rows A)) (m_mat A) b Sh Sb NSg).
Qed.
(** C91: the matrix that assemble returns is square and nonsingular *)
Theorem C91_regular pts faces m0 m hl vl e s dv sf horder bases crule erule norm terms ps marker df dir order fuel keep cls af ar H st A :
  let M := Region.mkR m (nh (hp m0)) hl vl in
  mesh_history pts faces m0 m -> good_faces pts faces -> situation pts faces e m s sf horder -> vertex_history2 edit pts faces e m s dv ->
  (forall p k d, sub_leaf (cells m) sf p -> dof_at s p k d -> has_vertex2 dv d) ->
  Forall derivative_ok bases -> rules_ok crule erule -> Forall (term_ok2 e M sf s bases) terms -> (forall p, In p ps <-> sub_leaf (cells m) sf p) ->
  lists_sets order -> SpecAssemble.canonical order -> df <> DSame2 -> proper_data2 df ->
  (forall d v, conditioned2 M e s sf marker true d v -> ~ hangs (face_adj faces) (cells m) sf e s d) ->
  add_dirichlet2 e M s dv marker df true sf [] = Ok dir ->
  st sf = None -> get_hanging horder e m s sf st = Ok H ->
  problem_cells2 e M s bases crule erule norm (map fst terms) ps = Ok cls ->
  assemble order (as_pairs H) dir fuel keep cls (init_forms (map (fun t => form_dim2 (fst t)) terms)) = Ok (af, ar) ->
  positive_rules crule erule -> (forall y, 0 <= norm y) -> resolves2 crule (S (degree e)) -> nonneg_terms m sf bases terms -> positive_term m sf bases terms V0 ->
  r2 ar = Some A -> m_cols A = m_rows A /\ SpecExact.nonsingular (length (m_rows A)) (m_mat A).
Proof.
  intros M MH GF SI VH DV DB RO TK PS LS CO NS PD NH EA ES EH EP EM PW PN RS NN PT HA.
  assert (FI : forall p, sub_leaf (cells m) sf p -> filled (n_dofs D2 e) s p).
  { pose proof SI as [_ [_ [_ [_ [FS _]]]]]. intros p [n [En [Fn _]]]. apply FS. exists n. auto. }
  apply (regular_of_definite pts faces m0 m hl vl e s dv sf horder bases crule erule norm terms ps marker df dir order fuel keep cls af ar H st A
    MH GF SI VH DV DB RO TK PS LS CO NS PD NH EA ES EH EP EM HA). fold M. intros z Z RZ CZ BZ Z0. exact (proj1 (C91_definite pts faces m0 M e s sf bases crule erule norm terms ps z Z MH GF FI RO PW PN RS NN PT PS RZ Z0)).
Qed.
Print Assumptions C91_regular.
(** solve returns, if the solver does for nonsingular systems *)
Theorem C91_returns pts faces m0 m hl vl e s dv sf horder bases crule erule norm terms ps marker df dir solver order fuel keep cls af ar H st :
  let M := Region.mkR m (nh (hp m0)) hl vl in
  mesh_history pts faces m0 m -> good_faces pts faces -> situation pts faces e m s sf horder -> vertex_history2 edit pts faces e m s dv ->
  (forall p k d, sub_leaf (cells m) sf p -> dof_at s p k d -> has_vertex2 dv d) ->
  Forall derivative_ok bases -> rules_ok crule erule -> Forall (term_ok2 e M sf s bases) terms -> (forall p, In p ps <-> sub_leaf (cells m) sf p) ->
  In 1%nat (map (fun t => form_dim2 (fst t)) terms) -> In 2%nat (map (fun t => form_dim2 (fst t)) terms) -> SpecExact.complete_spsolve solver ->
  lists_sets order -> SpecAssemble.canonical order -> df <> DSame2 -> proper_data2 df ->
  (forall d v, conditioned2 M e s sf marker true d v -> ~ hangs (face_adj faces) (cells m) sf e s d) ->
  add_dirichlet2 e M s dv marker df true sf [] = Ok dir ->
  st sf = None -> get_hanging horder e m s sf st = Ok H ->
  problem_cells2 e M s bases crule erule norm (map fst terms) ps = Ok cls ->
  assemble order (as_pairs H) dir fuel keep cls (init_forms (map (fun t => form_dim2 (fst t)) terms)) = Ok (af, ar) ->
  positive_rules crule erule -> (forall y, 0 <= norm y) -> resolves2 crule (S (degree e)) -> nonneg_terms m sf bases terms -> positive_term m sf bases terms V0 ->
  (exists p k j r d v, sub_leaf (cells m) sf p /\ dof_at s p k r /\ dof_at s p j d /\ conditioned2 M e s sf marker true d v /\
     (forall v', ~ conditioned2 M e s sf marker true r v') /\ ~ hangs (face_adj faces) (cells m) sf e s r) ->
  exists u, solve solver (seq 0 (dcount s)) (as_pairs H) dir ar = Ok u.
Proof.
  intros M MH GF SI VH DV DB RO TK PS I1 I2 SC LS CO NS PD NH EA ES EH EP EM PW PN RS NN PT FR.
  assert (FI : forall p, sub_leaf (cells m) sf p -> filled (n_dofs D2 e) s p).
  { pose proof SI as [_ [_ [_ [_ [FS _]]]]]. intros p [n [En [Fn _]]]. apply FS. exists n. auto. }
  apply (returns_of_definite pts faces m0 m hl vl e s dv sf horder bases crule erule norm terms ps marker df dir solver order fuel keep cls af ar H st
    MH GF SI VH DV DB RO TK PS I1 I2 SC LS CO NS PD NH EA ES EH EP EM); fold M; [|exact FR]. intros z Z RZ CZ BZ Z0. exact (proj1 (C91_definite pts faces m0 M e s sf bases crule erule norm terms ps z Z MH GF FI RO PW PN RS NN PT PS RZ Z0)).
Qed.
Print Assumptions C91_returns.
(** C92: the matrix that assemble returns is square and nonsingular *)
Theorem C92_regular pts faces m0 m hl vl e s dv sf horder bases crule erule norm terms ps marker df dir order fuel keep cls af ar H st A :
  let M := Region.mkR m (nh (hp m0)) hl vl in
  mesh_history pts faces m0 m -> good_faces pts faces -> situation pts faces e m s sf horder -> vertex_history2 edit pts faces e m s dv ->
  (forall p k d, sub_leaf (cells m) sf p -> dof_at s p k d -> has_vertex2 dv d) ->
  Forall derivative_ok bases -> rules_ok crule erule -> Forall (term_ok2 e M sf s bases) terms -> (forall p, In p ps <-> sub_leaf (cells m) sf p) ->
  lists_sets order -> SpecAssemble.canonical order -> df <> DSame2 -> proper_data2 df ->
  (forall d v, conditioned2 M e s sf marker true d v -> ~ hangs (face_adj faces) (cells m) sf e s d) ->
  add_dirichlet2 e M s dv marker df true sf [] = Ok dir ->
  st sf = None -> get_hanging horder e m s sf st = Ok H ->
  problem_cells2 e M s bases crule erule norm (map fst terms) ps = Ok cls ->
  assemble order (as_pairs H) dir fuel keep cls (init_forms (map (fun t => form_dim2 (fst t)) terms)) = Ok (af, ar) ->
  positive_rules crule erule -> (forall y, 0 <= norm y) -> resolves2 crule (S (degree e)) -> nonneg_terms m sf bases terms -> positive_term m sf bases terms (V1 0) -> positive_term m sf bases terms (V1 1) -> anchored faces M sf marker ->
  r2 ar = Some A -> m_cols A = m_rows A /\ SpecExact.nonsingular (length (m_rows A)) (m_mat A).
Proof.
  intros M MH GF SI VH DV DB RO TK PS LS CO NS PD NH EA ES EH EP EM PW PN RS NN PX PY AN HA.
  assert (FI : forall p, sub_leaf (cells m) sf p -> filled (n_dofs D2 e) s p).
  { pose proof SI as [_ [_ [_ [_ [FS _]]]]]. intros p [n [En [Fn _]]]. apply FS. exists n. auto. }
  apply (regular_of_definite pts faces m0 m hl vl e s dv sf horder bases crule erule norm terms ps marker df dir order fuel keep cls af ar H st A
    MH GF SI VH DV DB RO TK PS LS CO NS PD NH EA ES EH EP EM HA). fold M. intros z Z RZ CZ BZ Z0. exact (proj1 (Prop_Poisson2.C92_definite pts faces m0 M e s sf bases crule erule norm terms ps marker z Z MH GF FI RO PW PN RS NN PX PY PS AN RZ CZ BZ Z0)).
Qed.
Print Assumptions C92_regular.
(** solve returns, if the solver does for nonsingular systems *)
Theorem C92_returns pts faces m0 m hl vl e s dv sf horder bases crule erule norm terms ps marker df dir solver order fuel keep cls af ar H st :
  let M := Region.mkR m (nh (hp m0)) hl vl in
  mesh_history pts faces m0 m -> good_faces pts faces -> situation pts faces e m s sf horder -> vertex_history2 edit pts faces e m s dv ->
  (forall p k d, sub_leaf (cells m) sf p -> dof_at s p k d -> has_vertex2 dv d) ->
  Forall derivative_ok bases -> rules_ok crule erule -> Forall (term_ok2 e M sf s bases) terms -> (forall p, In p ps <-> sub_leaf (cells m) sf p) ->
  In 1%nat (map (fun t => form_dim2 (fst t)) terms) -> In 2%nat (map (fun t => form_dim2 (fst t)) terms) -> SpecExact.complete_spsolve solver ->
  lists_sets order -> SpecAssemble.canonical order -> df <> DSame2 -> proper_data2 df ->
  (forall d v, conditioned2 M e s sf marker true d v -> ~ hangs (face_adj faces) (cells m) sf e s d) ->
  add_dirichlet2 e M s dv marker df true sf [] = Ok dir ->
  st sf = None -> get_hanging horder e m s sf st = Ok H ->
  problem_cells2 e M s bases crule erule norm (map fst terms) ps = Ok cls ->
  assemble order (as_pairs H) dir fuel keep cls (init_forms (map (fun t => form_dim2 (fst t)) terms)) = Ok (af, ar) ->
  positive_rules crule erule -> (forall y, 0 <= norm y) -> resolves2 crule (S (degree e)) -> nonneg_terms m sf bases terms -> positive_term m sf bases terms (V1 0) -> positive_term m sf bases terms (V1 1) -> anchored faces M sf marker ->
  (exists p k j r d v, sub_leaf (cells m) sf p /\ dof_at s p k r /\ dof_at s p j d /\ conditioned2 M e s sf marker true d v /\
     (forall v', ~ conditioned2 M e s sf marker true r v') /\ ~ hangs (face_adj faces) (cells m) sf e s r) ->
  exists u, solve solver (seq 0 (dcount s)) (as_pairs H) dir ar = Ok u.
Proof.
  intros M MH GF SI VH DV DB RO TK PS I1 I2 SC LS CO NS PD NH EA ES EH EP EM PW PN RS NN PX PY AN FR.
  assert (FI : forall p, sub_leaf (cells m) sf p -> filled (n_dofs D2 e) s p).
  { pose proof SI as [_ [_ [_ [_ [FS _]]]]]. intros p [n [En [Fn _]]]. apply FS. exists n. auto. }
  apply (returns_of_definite pts faces m0 m hl vl e s dv sf horder bases crule erule norm terms ps marker df dir solver order fuel keep cls af ar H st
    MH GF SI VH DV DB RO TK PS I1 I2 SC LS CO NS PD NH EA ES EH EP EM); fold M; [|exact FR]. intros z Z RZ CZ BZ Z0. exact (proj1 (Prop_Poisson2.C92_definite pts faces m0 M e s sf bases crule erule norm terms ps marker z Z MH GF FI RO PW PN RS NN PX PY PS AN RZ CZ BZ Z0)).
Qed.
Print Assumptions C92_returns.
(** ** The Laplace equation on the refined mesh of C92_case: every solver for nonsingular systems will do *)
From Verif Require Import Prop_Poisson2 Prop_Problem2.
From Verif Require ForestFacts Prop_Grid.
Open Scope Q_scope.
Definition re_has (l : list nat) (d : nat) : bool := existsb (Nat.eqb d) l.
Definition re_free (s : dofs) (dir : list (nat * Q)) (H : hdict) (p : path) : bool :=
  match cell_dofs1 s p with None => false | Some ds =>
    existsb (fun r => negb (re_has (map fst dir) r) && negb (re_has (map fst H) r)) ds && existsb (re_has (map fst dir)) ds end.
Lemma re_has_in l d : re_has l d = true <-> In d l.
Proof. unfold re_has. rewrite existsb_exists. split; [intros [x [I E]]; apply Nat.eqb_eq in E; subst; exact I|intros I; exists d; split; [exact I|apply Nat.eqb_refl]]. Qed.
Definition re_check (r : res (mesh2 * (mesh2 * (dofs * dverts2)))) : bool :=
  match r with Err _ => false | Ok (m0, (m, (s, v))) =>
  match add_dirichlet2 Q1 (rx_M m0 m) s v None (DMap2 fst) true None [] with Err _ => false | Ok dir =>
  match get_hanging (fun l => l) Q1 m s None (fun _ => None) with Err _ => false | Ok H =>
  let ps := map fst (fget_leaves (cells m) None None BreadthFirst) in
  match problem_cells2 Q1 (rx_M m0 m) s rx_bases xe_crule Prop_Problem2.qx_erule Prop_Problem2.qx_norm (map fst pe_terms) ps with Err _ => false | Ok cls =>
  match assemble Prop_Assemble.sorted_set (as_pairs H) dir 400 true cls (init_forms (map (fun t => form_dim2 (fst t)) pe_terms)) with Err _ => false | Ok (af, ar) =>
    (length ps =? 5)%nat && (length H =? 1)%nat && (length dir =? 9)%nat && existsb (re_free s dir H) ps
  end end end end end.
Lemma re_run : re_check (vgrid 2 1 2 1 Q1 case_cs) = true.
Proof. vm_cast_no_check (eq_refl true). Qed.
Example C92_returns_case : exists m0 m s v dir H cls af ar ps, let M := rx_M m0 m in
  mesh_history (grid_points 0 2 0 1 2 1) (grid_faces 2 1) m0 m /\ situation (grid_points 0 2 0 1 2 1) (grid_faces 2 1) Q1 m s None (fun l => l) /\
  length ps = 5%nat /\ length dir = 9%nat /\ length H = 1%nat /\
  get_hanging (fun l => l) Q1 m s None (fun _ => None) = Ok H /\ add_dirichlet2 Q1 M s v None (DMap2 fst) true None [] = Ok dir /\
  problem_cells2 Q1 M s rx_bases xe_crule Prop_Problem2.qx_erule Prop_Problem2.qx_norm (map fst pe_terms) ps = Ok cls /\
  assemble Prop_Assemble.sorted_set (as_pairs H) dir 400 true cls (init_forms (map (fun t => form_dim2 (fst t)) pe_terms)) = Ok (af, ar) /\
  (forall A, r2 ar = Some A -> m_cols A = m_rows A /\ SpecExact.nonsingular (length (m_rows A)) (m_mat A)) /\
  forall solver, SpecExact.complete_spsolve solver -> exists u, solve solver (seq 0 (dcount s)) (as_pairs H) dir ar = Ok u.
Proof.
  pose proof re_run as E. destruct (vgrid 2 1 2 1 Q1 case_cs) as [[m0 [m [s v]]]|] eqn:EV; [|discriminate E]. unfold re_check in E.
  destruct (vgrid_history 2 1 2 1 Q1 case_cs m0 m s v (grid_ok 2 1 2 1) (Prop_QuadMesh.grid_quads 2 1) EV) as [[m1 [MH ->]] VH].
  destruct (vgrid_filled 2 1 2 1 Q1 (Some (CSplit None [1%nat])) m0 m s v EV ltac:(discriminate)) as [F1 F2].
  assert (SI := vgrid_situation 2 1 2 1 Q1 (Some (CSplit None [1%nat])) m0 m s v eq_refl EV ltac:(discriminate)).
  destruct (add_dirichlet2 Q1 (rx_M m0 m) s v None (DMap2 fst) true None []) as [dir|] eqn:ED; [|discriminate E].
  destruct (get_hanging (fun l => l) Q1 m s None (fun _ => None)) as [H|] eqn:EH; [|discriminate E].
  set (ps := map fst (fget_leaves (cells m) None None BreadthFirst)) in E.
  destruct (problem_cells2 _ _ _ _ _ _ _ _ _) as [cls|] eqn:EP; [|discriminate E].
  destruct (assemble _ _ _ _ _ _ _) as [[af ar]|] eqn:EM; [|discriminate E].
  apply andb_true_iff in E. destruct E as [E EF]. apply andb_true_iff in E. destruct E as [E E3]. apply andb_true_iff in E. destruct E as [E1 E2].
  apply Nat.eqb_eq in E1, E2, E3.
  assert (GF := Prop_Problem2.grid_good 2 1 0 2 0 1 eq_refl eq_refl).
  assert (PS : forall p, In p ps <-> sub_leaf (cells m) None p).
  { intros p. unfold ps. rewrite in_map_iff. split.
    - intros [[p' n] [Ep Ip]]. cbn [fst] in Ep. subst p'. apply ForestFacts.in_fget_leaves in Ip. exists n. tauto.
    - intros [n [Fn Ln]]. exists (p, n). split; auto. apply ForestFacts.in_fget_leaves. simpl. tauto. }
  assert (RO : rules_ok xe_crule Prop_Problem2.qx_erule).
  { split; (split; [reflexivity|]); intros x I; cbn in I; [destruct I as [<-|[<-|[<-|[<-|[]]]]]; split; cbn; lra|destruct I as [<-|[<-|[<-|[]]]]; split; lra]. }
  assert (PW : positive_rules xe_crule Prop_Problem2.qx_erule).
  { split; intros x I; cbn in I; [destruct I as [<-|[<-|[<-|[<-|[]]]]]; lra|destruct I as [<-|[<-|[<-|[]]]]; lra]. }
  assert (PN : forall y, 0 <= Prop_Problem2.qx_norm y).
  { intros y. unfold Prop_Problem2.qx_norm. pose proof (Qabs_nonneg (fst y)). pose proof (Qabs_nonneg (snd y)). lra. }
  assert (RS : resolves2 xe_crule (S (degree Q1))).
  { apply (C91_resolves xe_crule 2 [0; 1%Q] [0; 1%Q]); [cbn; lia|cbn; lia| | |].
    - intros i j Hij. cbn in Hij. assert (i = 0 /\ j = 1)%nat as [-> ->] by lia. cbn. lra.
    - intros i j Hij. cbn in Hij. assert (i = 0 /\ j = 1)%nat as [-> ->] by lia. cbn. lra.
    - intros x y [<-|[<-|[]]] [<-|[<-|[]]]; cbn; tauto. }
  assert (DB : Forall derivative_ok rx_bases) by (repeat (constructor; [cbn; auto; lia|]); constructor).
  assert (NN : nonneg_terms m None rx_bases (pe_terms)).
  { intros t i j It Ei Ej. cbn in It. destruct It as [<-|[<-|[<-|[<-|[]]]]]; cbn in Ei, Ej; try discriminate Ej; injection Ei as <-; injection Ej as <-; (split; [reflexivity|]); intros; cbn; lra. }
  assert (PX0 : positive_term m None rx_bases pe_terms (V1 0)).
  { exists (mkForm2 rx_one (Some 0%nat) (Some 0%nat) Dx2 None, fun _ _ => 1), 0%nat. split; [cbn; tauto|]. do 5 (split; [reflexivity|]). intros; cbn; lra. }
  assert (PY0 : positive_term m None rx_bases pe_terms (V1 1)).
  { exists (mkForm2 rx_one (Some 1%nat) (Some 1%nat) Dx2 None, fun _ _ => 1), 1%nat. split; [cbn; tauto|]. do 5 (split; [reflexivity|]). intros; cbn; lra. }
  assert (AN : anchored (grid_faces 2 1) (rx_M m0 m) None None).
  { apply (C92_grid 2 1 0 2 0 1 m0 m (fun _ _ => false) (fun _ _ => false) Q1 s None (fun l => l) (Nat.lt_0_succ _) (Nat.lt_0_succ _) eq_refl eq_refl MH SI).
    intros i Li. pose proof (history_minv _ _ _ _ MH) as Mi. assert (Hi : here m [i]) by (apply (m_roots _ _ _ Mi); exact Li). apply here_fget in Hi. destruct Hi as [n En]. exists n. split; [exact En|exact Logic.I]. }
  assert (VR : vertex_history2 edit (grid_points 0 2 0 1 2 1) (grid_faces 2 1) Q1 m s v) by exact VH.
  assert (FI : forall p, sub_leaf (cells m) None p -> filled (n_dofs D2 Q1) s p).
  { pose proof SI as [_ [_ [_ [_ [FS _]]]]]. intros p [n [En [Fn _]]]. apply FS. exists n. auto. }
  assert (NH := fun d v0 C => C88_grid 2 1 0 2 0 1 m0 m (fun _ _ => false) (fun _ _ => false) Q1 s None (fun l => l) None d v0 (Nat.lt_0_succ _) (Nat.lt_0_succ _) eq_refl eq_refl MH SI C).
  assert (R : submesh_rooted (cells m) None) by (pose proof SI as [_ [_ [R _]]]; exact R).
  exists m0, m, s, v, dir, H, cls, af, ar, ps. cbv zeta. do 9 (split; [assumption|]). split.
  - intros A HA. exact (C92_regular _ _ m0 m (fun _ _ => false) (fun _ _ => false) Q1 s v None (fun l => l) rx_bases xe_crule Prop_Problem2.qx_erule Prop_Problem2.qx_norm pe_terms ps None (DMap2 fst) dir Prop_Assemble.sorted_set 400%nat true cls af ar H (fun _ => None) A
      MH GF SI VR F2 DB RO (pe_ok Q1 (rx_M m0 m) None s) PS Prop_Assemble.sorted_lists Prop_Assemble.sorted_canonical ltac:(discriminate) (fun x y E => proj1 E) NH ED eq_refl EH EP EM PW PN RS NN PX0 PY0 AN HA).
  - intros solver SC. apply (C92_returns _ _ m0 m (fun _ _ => false) (fun _ _ => false) Q1 s v None (fun l => l) rx_bases xe_crule Prop_Problem2.qx_erule Prop_Problem2.qx_norm pe_terms ps None (DMap2 fst) dir solver Prop_Assemble.sorted_set 400%nat true cls af ar H (fun _ => None)
      MH GF SI VR F2 DB RO (pe_ok Q1 (rx_M m0 m) None s) PS ltac:(cbn; tauto) ltac:(cbn; tauto) SC Prop_Assemble.sorted_lists Prop_Assemble.sorted_canonical ltac:(discriminate) (fun x y E => proj1 E) NH ED eq_refl EH EP EM PW PN RS NN PX0 PY0 AN).
    destruct (C87_conditions _ _ m0 m (fun _ _ => false) (fun _ _ => false) Q1 s v None None (DMap2 fst) true [] MH VR R FI F2 ltac:(discriminate) (fun x y E => proj1 E) (NoDup_nil _)) as [dir' [E1' [_ [_ [_ C3]]]]].
    assert (dir' = dir) by (change (Region.mkR m (nh (hp m0)) (fun _ _ => false) (fun _ _ => false)) with (rx_M m0 m) in E1'; congruence). subst dir'.
    apply existsb_exists in EF. destruct EF as [p [Ip Fp]]. apply PS in Ip. unfold re_free in Fp. destruct (cell_dofs_list s p _ (FI p Ip)) as [ds [Ed [_ [_ LD]]]]. rewrite Ed in Fp.
    apply andb_true_iff in Fp. destruct Fp as [Fr Fd]. apply existsb_exists in Fr, Fd. destruct Fr as [r [Ir Fr]], Fd as [d [Id Fd]]. apply andb_true_iff in Fr. destruct Fr as [Fr1 Fr2]. apply negb_true_iff in Fr1, Fr2.
    apply re_has_in in Fd. apply C3 in Fd. destruct Fd as [[v1 C]|[]]. apply In_nth_error in Ir, Id. destruct Ir as [k Ik], Id as [j Ij].
    exists p, k, j, r, d, v1. split; [exact Ip|]. split; [apply LD; exact Ik|]. split; [apply LD; exact Ij|]. split; [exact C|]. split.
    + intros v' C'. assert (X : re_has (map fst dir) r = true) by (apply re_has_in; apply C3; left; exists v'; exact C'). congruence.
    + intros Hr. assert (X : re_has (map fst H) r = true) by (apply re_has_in; apply (C51_which _ _ Q1 m s None (fun l => l) (fun _ => None) H SI eq_refl EH r); exact Hr). congruence.
Qed.
Print Assumptions C92_returns_case.

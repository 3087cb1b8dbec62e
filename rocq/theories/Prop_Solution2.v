(** * C88: the solution of problems on quadrilateral meshes with hanging nodes *)
From Coq Require Import List Arith Bool Lia QArith Qabs Lqa Permutation.
From Verif Require Import Tree Forest Geom SpecGeom Dcel SpecDcel Quad SpecForest TreeFacts ForestFacts QuadFacts QuadSplit QuadInv SpecQuad QuadNb
  DcelFacts QuadInit QuadUniq QuadStart QuadCoords QuadHist Grid2 GridFacts Prop_QuadMesh BalSets Prop_Balance Fem SpecFem ShapeFacts Prop_Shape Prop_Inherit Dof SpecDof DofFacts DofInv Dof2 SpecDof2
  SurfFacts Node2Facts VertNb Surf2 Dof2Facts Dof2Hist Prop_Dof2 Region SpecRegion RegionDof SpecRegionDof Prop_RegionMark BoxFacts Prop_RegionDof SpecHang HangRef HangRun HangGeo Prop_Hang Problem2 SpecProblem2 Problem2Facts Prop_Problem2 DofVert Dirichlet1
  DofVert2 SpecDofVert2 DofVert2Facts DofVert2Hist Prop_Dirichlet2.
From Verif Require Import Hang Solver SpecSolver Assemble SpecAssemble.
From Verif Require AssembleFacts Prop_Assemble NodalFacts ElimSolver.
Import ListNotations.
Open Scope nat_scope.

(** the value of a finite element function at a node is the coefficient of its dof *)
Lemma value_at_slot e s u p k d y v : dof_at s p k d -> nth_error (reference_nodes2 e) k = Some y -> value_at e s u p y v -> (v == u d)%Q.
Proof.
  intros [l [El Hk]] Ny [ds [Ed [Ld [vs [Lv [Hv Sv]]]]]]. rewrite El in Ed. injection Ed as ->. rewrite nth_error_map in Hk. destruct (nth_error ds k) as [d'|] eqn:Edk; [|discriminate Hk]. injection Hk as ->.
  assert (Lk : k < n_dofs D2 e) by (rewrite <- Ld; apply nth_error_Some; congruence). destruct (C31_lagrange_2d e) as [_ LG]. destruct (LG k y Ny) as [_ LV]. rewrite <- Sv.
  assert (G : forall (n : nat) (l : list Q) j0, length l = n -> (forall i w, nth_error l i = Some w -> (w == if i + j0 =? k then u d else 0)%Q) -> (sumQ l == if (j0 <=? k) && (k <? j0 + n) then u d else 0)%Q).
  { clear. induction n as [|n IH]; intros [|w l] j0 Hl Hw; cbn in Hl; try discriminate Hl.
    - replace ((j0 <=? k) && (k <? j0 + 0)) with false; [reflexivity|]. destruct (Nat.leb_spec j0 k), (Nat.ltb_spec k (j0 + 0)); cbn; auto; lia.
    - change (sumQ (w :: l)) with (w + sumQ l)%Q. rewrite (IH l (S j0)) by (try lia; intros i w' E; pose proof (Hw (S i) w' E) as Z; replace (i + S j0) with (S i + j0) by lia; exact Z).
      pose proof (Hw 0 w eq_refl) as Z. cbn [Nat.add] in Z. rewrite Z. destruct (Nat.eqb_spec j0 k) as [->|N].
      + replace (S k <=? k) with false by (symmetry; apply Nat.leb_gt; lia). rewrite Nat.leb_refl. replace (k <? k + S n) with true by (symmetry; apply Nat.ltb_lt; lia). cbn. ring.
      + replace (S j0 <=? k) with (j0 <=? k) by (destruct (Nat.leb_spec j0 k), (Nat.leb_spec (S j0) k); auto; lia). replace (S j0 + n) with (j0 + S n) by lia. ring. }
  assert (X := G (n_dofs D2 e) vs 0 Lv). rewrite X.
  - replace ((0 <=? k) && (k <? 0 + n_dofs D2 e)) with true; [reflexivity|]. symmetry. apply andb_true_iff. split; [apply Nat.leb_le; lia|apply Nat.ltb_lt; lia].
  - intros i w Ew. assert (Li : i < n_dofs D2 e) by (rewrite <- Lv; apply nth_error_Some; congruence). pose proof (Hv i w Ew) as Q. destruct (LV i Li) as [z [Ez Vz]]. rewrite Ez in Q. cbn [bind] in Q. injection Q as <-.
    rewrite Vz, Nat.add_0_r. destruct (Nat.eqb_spec i k) as [->|_]; [|ring]. rewrite (nth_error_nth _ _ _ Edk). ring.
Qed.
Lemma sat_iff u H : satisfies u H <-> forall d sup cs, In (d, (sup, cs)) H -> (u d == combination u (combine sup cs))%Q.
Proof. unfold satisfies, combination. split; intros A d sup cs I; exact (A d sup cs I). Qed.
Lemma trial_satisfies u H dir : trial_space (as_pairs H) dir u -> satisfies u H.
Proof.
  intros T. apply sat_iff. intros d sup cs I. assert (Ic : In (mkC d (combine sup cs) 0%Q) (constraints (as_pairs H) dir)).
  { unfold constraints. apply in_app_iff. left. apply in_map_iff. exists (d, combine sup cs). split; [reflexivity|]. unfold as_pairs. apply in_map_iff. exists (d, (sup, cs)). auto. }
  specialize (T _ Ic). unfold fulfils in T. cbn [c_dof c_supp c_aff] in T. rewrite T. apply Qplus_0_r.
Qed.
Lemma satisfies_test u H dir : satisfies u H -> (forall d, In d (map fst dir) -> (u d == 0)%Q) -> test_space (as_pairs H) dir u.
Proof.
  intros S Z c I. rewrite sat_iff in S. unfold constraints in I. apply in_app_iff in I. destruct I as [I|I]; apply in_map_iff in I; destruct I as [[d x] [<- I]]; unfold homogeneous; cbn [c_dof c_supp fst snd].
  - unfold as_pairs in I. apply in_map_iff in I. destruct I as [[d' [sup cs]] [E I]]. cbn [fst snd] in E. injection E as <- <-. exact (S d' sup cs I).
  - apply (in_map fst) in I. exact (Z d I).
Qed.
(** From the mesh to the solution, with hanging nodes: what solve returns are the coefficients of a
    continuous finite element function that has the prescribed values at the (marked) vertices of
    the boundary and satisfies a(v,u) = l(v), with the forms of C86, for all continuous finite
    element functions v that vanish there.  (The conditions must not be at hanging nodes: see
    C88_grid.) *)
Definition boundary_corner (M : rmesh) (sf marker : option flag) (v : nat) (p : path) (i : nat) : Prop :=
  found_in M sf true (Vtx v) p /\ (forall g, marker = Some g -> labelled M (Vtx v) g) /\ exists h, is_side (rm M) p i h /\ v = hbase (he (hp (rm M)) h).
Theorem C88_solution pts faces m0 m hl vl e s dv sf horder bases crule erule norm terms ps marker df dir solver order fuel keep cls af ar H st u :
  let M := Region.mkR m (nh (hp m0)) hl vl in
  mesh_history pts faces m0 m -> good_faces pts faces -> situation pts faces e m s sf horder -> vertex_history2 edit pts faces e m s dv ->
  (forall p k d, sub_leaf (cells m) sf p -> dof_at s p k d -> has_vertex2 dv d) ->
  Forall derivative_ok bases -> rules_ok crule erule -> Forall (term_ok2 e M sf s bases) terms -> (forall p, In p ps -> sub_leaf (cells m) sf p) -> ps <> [] ->
  In 1 (map (fun t => form_dim2 (fst t)) terms) -> In 2 (map (fun t => form_dim2 (fst t)) terms) ->
  exact_spsolve solver -> lists_sets order -> SpecAssemble.canonical order -> df <> DSame2 -> proper_data2 df ->
  (forall d v, conditioned2 M e s sf marker true d v -> ~ hangs (face_adj faces) (cells m) sf e s d) ->
  add_dirichlet2 e M s dv marker df true sf [] = Ok dir ->
  st sf = None -> get_hanging horder e m s sf st = Ok H ->
  problem_cells2 e M s bases crule erule norm (map fst terms) ps = Ok cls ->
  assemble order (as_pairs H) dir fuel keep cls (init_forms (map (fun t => form_dim2 (fst t)) terms)) = Ok (af, ar) ->
  solve solver (seq 0 (dcount s)) (as_pairs H) dir ar = Ok u ->
  length u = dcount s /\ continuous (face_adj faces) (cells m) sf e s (fun d => nth d u 0%Q) /\
  forall W, represents2 e m sf s (fun d => nth d u 0%Q) W ->
    (forall v p i, boundary_corner M sf marker v p i -> prescribed2 df (vx (hp m) v) (W V0 p (corner i))) /\
    (forall w V, represents2 e m sf s w V -> continuous (face_adj faces) (cells m) sf e s w ->
       (forall v p i, boundary_corner M sf marker v p i -> V V0 p (corner i) == 0)%Q ->
       (bilinear_value2 M crule erule norm bases terms ps V W == linear_value2 M crule erule norm bases terms ps V)%Q).
Proof.
  intros M MH GF SI VH HV DB RO TK PS NP I1 I2 SV LS CO NS PD NH EA ES EH EP EM EU.
  pose proof SI as [_ [T [Rt [_ [FS _]]]]]. assert (FI : forall p, sub_leaf (cells m) sf p -> filled (n_dofs D2 e) s p) by (intros p [n [En [Fn _]]]; apply FS; exists n; auto).
  destruct (C87_conditions pts faces m0 m hl vl e s dv sf marker df true [] MH VH Rt FI HV NS PD (NoDup_nil _)) as [dir' [E1 [ND [C1 [_ C3]]]]]. fold M in E1, C1, C3. assert (dir' = dir) by congruence. subst dir'.
  destruct (C86_forms pts faces m0 M sf e s bases crule erule norm terms ps MH GF FI DB RO TK PS) as [cls' [E2 [P1 [P2 [P3 [P4 [P5 _]]]]]]]. assert (cls' = cls) by congruence. subst cls'.
  assert (WP : well_posed (dcount s) cls (as_pairs H) dir).
  { apply (C52_well_posed pts faces e m s sf horder st H cls dir SI ES EH); [intros d Hd; destruct (P3 d Hd) as [p [k [_ Dk]]]; eauto|exact ND|].
    intros d Id. apply C3 in Id. destruct Id as [[v C]|[]]. split; [|exact (NH d v C)]. destruct C as [p [k [_ [_ [_ Dk]]]]]. eauto. }
  destruct (C51_continuous pts faces e m s sf horder st SI ES) as [H' [EH' CT]]. assert (H' = H) by congruence. subst H'.
  assert (LF : forall v p, found_in M sf true (Vtx v) p -> (forall g, marker = Some g -> labelled M (Vtx v) g) -> sub_leaf (cells m) sf p).
  { intros v p F L. destruct (C68_get pts faces m0 M sf marker EVertex true MH eq_refl Rt) as [out [_ [_ [J1 J2]]]]. apply (J2 (Vtx v) p). apply J1. split; [reflexivity|]. split; [exact F|exact L]. }
  assert (SC : forall c, shape_is m c (cell_quad m c) \/ ~ sub_leaf (cells m) sf c).
  { intros c. destruct (fget (cells m) c) as [n|] eqn:En; [|right; intros [n [En' _]]; congruence]. left. destruct (shape_total MH c (ex_intro _ n En)) as [q S]. pose proof (shape_quad c q S) as <-. exact S. }
  assert (UC : forall i, in_unit (corner i)) by (intros i; apply unit_corner).
  assert (ATV : forall c V v p i, represents2 e m sf s c V -> continuous (face_adj faces) (cells m) sf e s c -> boundary_corner M sf marker v p i ->
     exists k d, slot_on e m p (Vtx v) false k /\ dof_at s p k d /\ (V V0 p (corner i) == c d)%Q).
  { intros c V v p i RV CC [F [L [h [Si Ev]]]]. pose proof (LF v p F L) as Lp. pose proof (history_minv _ _ _ _ MH) as Mi. pose proof Si as Si'. apply (is_side_iff _ _ _ _ (m_s _ _ _ Mi)) in Si'. destruct Si' as [_ [Li _]].
    destruct (node2_corner e i T Li) as [Lk Ek]. destruct (FI p Lp) as [l [_ [_ Fk]]]. destruct (Fk i Lk) as [d Dk]. exists i, d.
    assert (Ny : nth_error (reference_nodes2 e) i = Some (node2 e i)) by (apply Node2Facts.nodes2_nth; exact Lk).
    split; [exists (node2 e i); split; [exact Ny|]; exists i, h; split; [exact Si|split; [exact Ev|exact Ek]]|]. split; [exact Dk|].
    assert (Un : in_unit (node2 e i)) by (apply (proj2 (C31_lagrange_2d e) i _ Ny)). destruct (SC p) as [Sh|N]; [|destruct (N Lp)].
    destruct (RV p _ (corner i) Lp Sh (UC i)) as [A _]. destruct (RV p _ (node2 e i) Lp Sh Un) as [B _].
    rewrite <- (value_at_slot e s c p i d _ _ Dk Ny B). apply (CC p p (corner i) (node2 e i) _ _ Lp Lp (UC i) Un); [|exact A|exact B].
    constructor. apply root_peq. apply peq_s. exact Ek. }
  assert (Hn : (0 < dcount s)%nat).
  { destruct ps as [|p0 ps0]; [congruence|]. destruct (FI p0 (PS p0 (or_introl eq_refl))) as [l [_ [_ Fk]]]. destruct (Fk 0) as [d Dk]; [destruct e; cbn; lia|].
    destruct (situation_facts _ _ _ _ _ _ _ SI) as [_ [_ [_ [_ [_ BD]]]]]. apply slot_dof in Dk. specialize (BD d p0 0 Dk). lia. }
  destruct (Prop_Assemble.C44_solution_partial solver order (dcount s) _ cls (as_pairs H) dir fuel keep af ar u SV LS CO P1 I1 I2 P2 Hn WP EM EU) as [Lu [T1 T2]].
  assert (CU : continuous (face_adj faces) (cells m) sf e s (fun d => nth d u 0%Q)) by (apply CT; apply (trial_satisfies _ H dir T1)).
  split; [exact Lu|]. split; [exact CU|]. intros W RW. split.
  - intros v p i BC. pose proof BC as [F [L _]]. destruct (ATV _ W v p i RW CU BC) as [k [d [So [Dk E]]]].
    assert (CC : conditioned2 M e s sf marker true d v) by (exists p, k; split; [exact F|split; [exact L|split; [exact So|exact Dk]]]).
    destruct (C1 d v CC) as [y [El Py]]. apply AssembleFacts.lookup_in in El.
    assert (Q : (nth d u 0 == y)%Q).
    { assert (Z := T1 (mkC d [] y)). unfold fulfils in Z. cbn in Z. rewrite Z; [ring|]. unfold constraints. apply in_app_iff. right. apply in_map_iff. exists (d, y). auto. }
    destruct df as [c|g|]; cbn in Py |- *; [rewrite E, Q; exact Py|rewrite E, Q; exact Py|exact Py].
  - intros w V RV CW HZ. rewrite <- (P4 w (fun d => nth d u 0%Q) V W RV RW), <- (P5 w V RV). apply T2. apply satisfies_test; [apply CT; exact CW|].
    intros d Id. apply C3 in Id. destruct Id as [[v [p [k [F [L [So Dk]]]]]]|[]]. pose proof So as [y [Ny [i [h [Si [Ev Ey]]]]]]. pose proof (LF v p F L) as Lp.
    assert (BC : boundary_corner M sf marker v p i) by (split; [exact F|split; [exact L|exists h; split; [exact Si|exact Ev]]]).
    destruct (SC p) as [Sh|N]; [|destruct (N Lp)]. assert (Un : in_unit y) by (apply (proj2 (C31_lagrange_2d e) k _ Ny)).
    destruct (RV p _ (corner i) Lp Sh (UC i)) as [A _]. destruct (RV p _ y Lp Sh Un) as [B _].
    rewrite <- (value_at_slot e s w p k d _ _ Dk Ny B). rewrite <- (HZ v p i BC). apply (CW p p y (corner i) _ _ Lp Lp Un (UC i)); [|exact B|exact A].
    constructor. apply root_peq. exact Ey.
Qed.
Print Assumptions C88_solution.

(** ** Rectangular grids: boundary vertices do not hang *)
Lemma hang_on_side pts faces m e sf p x q k : quad_faces faces -> minv pts faces m -> torn e = false -> submesh_rooted (cells m) sf ->
  sub_leaf (cells m) sf p -> sub_leaf (cells m) sf q -> unit_pt x -> k < nd2 e -> glued (face_adj faces) (place p x) (place q (node2 e k)) -> nonnode e x ->
  exists k0 a j t, nb (face_adj faces) p k0 a j /\ (0 <= t <= 1)%Q /\ peq x (side_pt k0 t).
Proof.
  intros QF M Hcont R Lp Lq Ux Lk G NN.
  assert (IS : forall c, sub_leaf (cells m) sf c -> in_sub (cells m) sf c) by (intros c [n [En [Fn _]]]; exists n; auto).
  assert (HE : forall c, in_sub (cells m) sf c -> here m c) by (intros c [n [En _]]; apply here_fget; eauto).
  assert (Np : p <> []) by (eapply here_ne; apply HE, IS; exact Lp).
  pose proof (nonnode_finer pts faces m e QF M Hcont p q k x (HE p (IS p Lp)) (HE q (IS q Lq)) Lk Ux NN G) as L.
  destruct (cut_path q (length p)) as [a [r [E [La Na]]]]; [destruct p; [congruence|cbn; lia]|lia|]. subst q.
  rewrite place_app in G by auto. assert (Sa : in_sub (cells m) sf a) by (eapply (ins_prefix pts faces m sf M R a r); auto).
  destruct (surf_level pts faces m QF M p a (eq_sym La) (HE p (IS p Lp)) (HE a Sa) x (in_root r (node2 e k)) Ux (unit_root r _ (nodes2_unit e k)) G) as [[<- Ex]|[S|V]].
  - exfalso. rewrite (leaf_below pts faces m sf M R p r Lp (IS _ Lq)), app_nil_r in L. lia.
  - destruct S as [k0 [j [t [N [Ht [E1 E2]]]]]]. exists k0, a, j, t. auto.
  - exfalso. destruct V as [c0 [d0 [Lc0 [_ [E1 _]]]]]. exact (nonnode_corner e x c0 Hcont NN Lc0 E1).
Qed.
Lemma outer_no_nb adj p k q j : nb adj p k q j -> forall r p', p = r :: p' -> Forall (touches k) p' -> exists r' j', adj r k r' j'.
Proof.
  induction 1 as [r0 k r0' j A|p k q j N IH|p k q j N IH|p i Np Li|p i Np Li]; intros r p' E F.
  - injection E as -> <-. eauto.
  - destruct p as [|r1 p1]; [inversion N; subst; try discriminate; destruct p; discriminate|]. injection E as -> <-. apply (IH r p1 eq_refl). apply Forall_app in F. tauto.
  - destruct p as [|r1 p1]; [inversion N; subst; try discriminate; destruct p; discriminate|]. injection E as -> <-. apply (IH r p1 eq_refl). apply Forall_app in F. tauto.
  - exfalso. destruct p as [|r1 p1]; [congruence|]. injection E as -> <-. apply Forall_app in F. destruct F as [_ F]. inversion F as [|? ? T _]; subst. destruct i as [|[|[|[|]]]]; try lia; cbn in T; destruct T as [T|T]; cbn in T; lia.
  - exfalso. destruct p as [|r1 p1]; [congruence|]. injection E as -> <-. apply Forall_app in F. destruct F as [_ F]. inversion F as [|? ? T _]; subst. destruct i as [|[|[|[|]]]]; try lia; cbn in T; destruct T as [T|T]; cbn in T; lia.
Qed.
Theorem C88_grid nx ny (xa xb ya yb : Q) m0 m hl vl e s sf order marker d v : 0 < nx -> 0 < ny -> (xa < xb)%Q -> (ya < yb)%Q ->
  mesh_history (grid_points xa xb ya yb nx ny) (grid_faces nx ny) m0 m -> situation (grid_points xa xb ya yb nx ny) (grid_faces nx ny) e m s sf order ->
  conditioned2 (Region.mkR m (nh (hp m0)) hl vl) e s sf marker true d v -> ~ hangs (face_adj (grid_faces nx ny)) (cells m) sf e s d.
Proof.
  intros Px Py Hx Hy MH SI C. set (M := Region.mkR m (nh (hp m0)) hl vl) in *. pose proof SI as [DH [T [Rt [_ [FS _]]]]]. pose proof (history_minv _ _ _ _ MH) as Mi. assert (QF : quad_faces (grid_faces nx ny)) by (destruct MH as [_ [QF _]]; exact QF).
  assert (CV : exists v j, corner_dof e m s sf d v /\ j < 4 /\ on_line xa xb ya yb j (vx (hp m) v)).
  { apply (vertex_iff nx ny xa xb ya yb m0 M e s sf Px Py Hx Hy MH eq_refl Rt d). destruct C as [p [k [F [_ [So Dk]]]]]. exists (Vtx v), p, k. split; [reflexivity|]. split; [exact F|]. split; [exact So|exact Dk]. }
  destruct CV as [v' [j [[p' [k' [i' [h' [Lp' [Dk' [Si' [Ev' [y' [Ny' Ey']]]]]]]]]] [Lj OL]]]]. clear C.
  intros [p [x [q [k [b [Lp [Lq [Ux [Dk [[z [Nz ->]] [G NN]]]]]]]]]]]. apply nodes2_at in Nz. destruct Nz as [Lk ->].
  assert (NN' : nonnode e x) by (intros i Li; apply (NN i); apply Node2Facts.nodes2_nth; auto).
  assert (HE : forall c, sub_leaf (cells m) sf c -> here m c) by (intros c [n [En _]]; apply here_fget; eauto).
  assert (PE : forall c i, here m c -> i < nd2 e -> exists w, position2 e m c i w).
  { intros c i Hc Li. eexists. apply (node_position MH e c i (node2 e i)); [apply here_fget in Hc; exact Hc|apply Node2Facts.nodes2_nth; exact Li]. }
  destruct (nodes2_at _ _ _ Ny') as [Lk' _]. destruct (PE p' k' (HE p' Lp') Lk') as [w' P']. destruct (PE q k (HE q Lq) Lk) as [w P].
  assert (S' : peq w' (vx (hp m) v')) by (apply (slot_vertex _ _ m0 m e p' v' k' w' MH); [exists y'; split; [exact Ny'|]; exists i', h'; auto|exact P']).
  destruct (C48_same_point _ _ e m s q k w p' k' w' d (relabel_any _ _ _ _ _ DH) T Dk Dk' P P') as [_ WW].
  destruct (position2_plane _ _ m Mi e q k w P) as [_ [_ PW]]. pose proof (plane_glued _ _ m QF Mi _ _ G) as PG.
  assert (PX : peq (vx (hp m) v') (plane m (place p x))) by (eapply peq_t; [apply peq_s; exact S'|]; eapply peq_t; [apply peq_s; exact WW|]; eapply peq_t; [exact PW|apply peq_s; exact PG]).
  apply (line_peq _ _ _ _ _ _ _ PX) in OL.
  apply (cell_line xa xb ya yb nx ny m0 m MH Hx Hy j p x Lj (HE p Lp) Ux) in OL. destruct OL as [r [p1 [Ep [O [F U]]]]].
  apply (uside_side nx ny m0 M Px Py eq_refl j x Lj Ux) in U. destruct U as [t [Et Ht]].
  destruct (hang_on_side _ _ m e sf p x q k QF Mi T Rt Lp Lq Ux Lk G NN') as [k0 [a [j0 [t0 [N [Ht0 E0]]]]]].
  destruct (nb_lt _ _ m QF Mi _ _ _ _ N) as [Lk0 _]. pose proof (nonnode_side e x k0 j t0 t T NN' Lk0 Lj Ht0 Ht E0 Et) as EK. subst k0.
  destruct (outer_no_nb _ _ _ _ _ N r p1 Ep F) as [r' [j' A]]. destruct O as [_ O]. exact (O r' j' A).
Qed.
Print Assumptions C88_grid.

(** ** The theorems apply: Poisson's equation with a mass term on [0,2]x[0,1], one of two cells refined *)
Lemma vgrid_situation nx ny (xb yb : Q) e c m0 m s v : torn e = false -> vgrid nx ny xb yb e [c; None] = Ok (m0, (m, (s, v))) -> c <> None ->
  situation (grid_points 0 xb 0 yb nx ny) (grid_faces nx ny) e m s None (fun l => l).
Proof.
  intros T E NC. destruct c as [c|]; [|congruence]. pose proof (vgrid_history nx ny xb yb e _ m0 m s v (grid_ok nx ny xb yb) (Prop_QuadMesh.grid_quads nx ny) E) as [[m1 [MH _]] _].
  unfold vgrid in E. destruct (determine2 _ _) as [d|]; [|discriminate E]. cbn [bind] in E. destruct (mesh_of_dcel _ _ _) as [m2|] eqn:EM; [|discriminate E]. cbn [bind vrun fst snd] in E.
  destruct (run_cmd m2 c) as [m3|] eqn:ER; [|discriminate E]. cbn [bind vrun fst snd] in E. destruct (distribute_dofs2 e m3 None (no_dofs, [])) as [[s3 v3]|] eqn:E3; [|discriminate E]. cbn [bind] in E.
  assert (Q : (m2, (m3, (s3, v3))) = (m0, (m, (s, v)))) by congruence. injection Q as -> -> -> ->.
  assert (HD : dof_history2 relabel (grid_points 0 xb 0 yb nx ny) (grid_faces nx ny) e m no_dofs) by (eapply DH2_start; exact MH).
  unfold distribute_dofs2 in E3. cbn [fst snd] in E3. destruct (Dof2.distribute2 e m None no_dofs) as [s4|] eqn:E4; [|discriminate E3]. cbn [bind] in E3.
  destruct (set_dof_vertices2 e m None s4 []) as [v4|]; [|discriminate E3]. cbn [bind] in E3. assert (Q : (s4, v4) = (s, v)) by congruence. injection Q as -> _.
  apply (C51_situation _ _ e m no_dofs s (fun l => l) HD T E4). intros l. apply Permutation_refl.
Qed.
Open Scope Q_scope.
Definition rx_one : Kernel.kernel pt deriv := Kernel.mkKernel [constant_map2 [1]] [None] (fun v => nth 0 v 0) 1%nat.
Definition rx_x : Kernel.kernel pt deriv := Kernel.mkKernel [explicit_map2 ([fun (_ : unit) z => fst z], [tt])] [None] (fun v => nth 0 v 0) 1%nat.
Definition rx_bases : list deriv := [V1 0; V1 1; V0].
(** Dx u Dx v + Dy u Dy v + u v = x v *)
Definition rx_terms (m : mesh2) : list (form2 * (path -> pt -> Q)) :=
  [(mkForm2 rx_one (Some 0%nat) (Some 0%nat) Dx2 None, fun _ _ => 1); (mkForm2 rx_one (Some 1%nat) (Some 1%nat) Dx2 None, fun _ _ => 1);
   (mkForm2 rx_one (Some 2%nat) (Some 2%nat) Dx2 None, fun _ _ => 1); (mkForm2 rx_x (Some 2%nat) None Dx2 None, fun p x => fst (qmap (cell_quad m p) (fst x) (snd x)))].
Definition rx_M (m0 m : mesh2) : rmesh := Region.mkR m (nh (hp m0)) (fun _ _ => false) (fun _ _ => false).
Lemma rx_ok e M sf s : Forall (term_ok2 e M sf s rx_bases) (rx_terms (rm M)).
Proof.
  assert (F1 : forall l l', Forall2 Qeq l l' -> nth 0 l 0 == nth 0 l' 0) by (intros l l' F; destruct F; [reflexivity|assumption]).
  assert (K1 : kernel_is2 e M sf s rx_bases rx_one (fun _ _ => 1)).
  { apply (C86_kernel e M sf s rx_bases [constant_map2 [1]] [fun _ _ => 1] (fun v => nth 0 v 0) rx_one); [constructor; [apply C86_maps|constructor]|reflexivity|exact F1]. }
  assert (K2 : kernel_is2 e M sf s rx_bases rx_x (fun p x => fst (qmap (cell_quad (rm M) p) (fst x) (snd x)))).
  { apply (C86_kernel e M sf s rx_bases [explicit_map2 ([fun (_ : unit) z => fst z], [tt])] [fun p x => fst (qmap (cell_quad (rm M) p) (fst x) (snd x))] (fun v => nth 0 v 0) rx_x); [constructor; [|constructor]|reflexivity|exact F1].
    apply (proj1 (C86_maps e M sf s rx_bases) unit (fun _ z => fst z) tt). intros p q x S _. rewrite (shape_quad p q S). reflexivity. }
  constructor; [|constructor; [|constructor; [|constructor; [|constructor]]]]; (split; [assumption|]); split; intros i E; cbn in E; try discriminate E; injection E as <-; cbn; lia.
Qed.
Definition rx_check (r : res (mesh2 * (mesh2 * (dofs * dverts2)))) : bool :=
  match r with Err _ => false | Ok (m0, (m, (s, v))) =>
  match add_dirichlet2 Q1 (rx_M m0 m) s v None (DMap2 fst) true None [] with Err _ => false | Ok dir =>
  match get_hanging (fun l => l) Q1 m s None (fun _ => None) with Err _ => false | Ok H =>
  match problem_cells2 Q1 (rx_M m0 m) s rx_bases qx_crule qx_erule qx_norm (map fst (rx_terms m)) qx_ps with Err _ => false | Ok cls =>
  match assemble Prop_Assemble.sorted_set (as_pairs H) dir 400 true cls (init_forms (map (fun t => form_dim2 (fst t)) (rx_terms m))) with Err _ => false | Ok (af, ar) =>
  match solve ElimSolver.gauss_solver (seq 0 (dcount s)) (as_pairs H) dir ar with Err _ => false | Ok u =>
    forallb (leafb m) qx_ps && (length H =? 1)%nat && (length dir =? 9)%nat && (length u =? 11)%nat &&
    forallb (fun xy => Qeq_bool (fst xy) (snd xy)) (combine u [0; 1; 1; 0; 2; 2; 3 # 2; 3 # 2; 1; 2; 3 # 2])
  end end end end end end.
Lemma rx_run : rx_check (vgrid 2 1 2 1 Q1 case_cs) = true.
Proof. vm_cast_no_check (eq_refl true). Qed.
(** one hanging node, nine conditions u = x, eleven dofs; the solution is the function x *)
Example C88_case : exists m0 m s v dir H cls af ar u W, let M := rx_M m0 m in
  mesh_history (grid_points 0 2 0 1 2 1) (grid_faces 2 1) m0 m /\ situation (grid_points 0 2 0 1 2 1) (grid_faces 2 1) Q1 m s None (fun l => l) /\
  add_dirichlet2 Q1 M s v None (DMap2 fst) true None [] = Ok dir /\ length dir = 9%nat /\
  get_hanging (fun l => l) Q1 m s None (fun _ => None) = Ok H /\ length H = 1%nat /\
  problem_cells2 Q1 M s rx_bases qx_crule qx_erule qx_norm (map fst (rx_terms m)) qx_ps = Ok cls /\
  assemble Prop_Assemble.sorted_set (as_pairs H) dir 400 true cls (init_forms (map (fun t => form_dim2 (fst t)) (rx_terms m))) = Ok (af, ar) /\
  solve ElimSolver.gauss_solver (seq 0 (dcount s)) (as_pairs H) dir ar = Ok u /\ length u = 11%nat /\
  Forall (fun xy => fst xy == snd xy) (combine u [0; 1; 1; 0; 2; 2; 3 # 2; 3 # 2; 1; 2; 3 # 2]) /\
  represents2 Q1 m None s (fun d => nth d u 0) W /\
  (forall w p i, boundary_corner M None None w p i -> W V0 p (corner i) == fst (vx (hp m) w)) /\
  continuous (face_adj (grid_faces 2 1)) (cells m) None Q1 s (fun d => nth d u 0).
Proof.
  pose proof rx_run as E. destruct (vgrid 2 1 2 1 Q1 case_cs) as [[m0 [m [s v]]]|] eqn:EV; [|discriminate E]. unfold rx_check in E.
  destruct (vgrid_history 2 1 2 1 Q1 case_cs m0 m s v (grid_ok 2 1 2 1) (Prop_QuadMesh.grid_quads 2 1) EV) as [[m1 [MH ->]] VH].
  destruct (vgrid_filled 2 1 2 1 Q1 (Some (CSplit None [1%nat])) m0 m s v EV ltac:(discriminate)) as [F1 F2].
  assert (SI := vgrid_situation 2 1 2 1 Q1 (Some (CSplit None [1%nat])) m0 m s v eq_refl EV ltac:(discriminate)).
  destruct (add_dirichlet2 Q1 (rx_M m0 m) s v None (DMap2 fst) true None []) as [dir|] eqn:ED; [|discriminate E].
  destruct (get_hanging (fun l => l) Q1 m s None (fun _ => None)) as [H|] eqn:EH; [|discriminate E].
  destruct (problem_cells2 _ _ _ _ _ _ _ _ _) as [cls|] eqn:EP; [|discriminate E].
  destruct (assemble _ _ _ _ _ _ _) as [[af ar]|] eqn:EM; [|discriminate E].
  destruct (solve _ _ _ _ _) as [u|] eqn:EU; [|discriminate E].
  apply andb_true_iff in E. destruct E as [E E5]. apply andb_true_iff in E. destruct E as [E E4]. apply andb_true_iff in E. destruct E as [E E3]. apply andb_true_iff in E. destruct E as [E1 E2].
  apply Nat.eqb_eq in E2, E3, E4. rewrite forallb_forall in E1, E5.
  assert (GF := grid_good 2 1 0 2 0 1 eq_refl eq_refl). destruct (C86_functions _ _ _ m None Q1 s (fun d => nth d u 0) MH GF F1) as [[W RW] _].
  assert (PS : forall p, In p qx_ps -> sub_leaf (cells m) None p) by (intros p I; apply leafb_ok, E1, I).
  assert (RO : rules_ok qx_crule qx_erule).
  { split; (split; [reflexivity|]); intros x I; cbn in I; [destruct I as [<-|[]]; split; cbn; lra|destruct I as [<-|[<-|[<-|[]]]]; split; lra]. }
  assert (DB : Forall derivative_ok rx_bases) by (repeat (constructor; [cbn; auto; lia|]); constructor).
  assert (VR : vertex_history2 edit (grid_points 0 2 0 1 2 1) (grid_faces 2 1) Q1 m s v) by exact VH.
  destruct (C88_solution _ _ m0 m (fun _ _ => false) (fun _ _ => false) Q1 s v None (fun l => l) rx_bases qx_crule qx_erule qx_norm (rx_terms m) qx_ps None (DMap2 fst) dir ElimSolver.gauss_solver Prop_Assemble.sorted_set 400%nat true cls af ar H (fun _ => None) u
    MH GF SI VR F2 DB RO (rx_ok Q1 (rx_M m0 m) None s) PS ltac:(discriminate) ltac:(cbn; tauto) ltac:(cbn; tauto) ElimSolver.gauss_solver_exact Prop_Assemble.sorted_lists Prop_Assemble.sorted_canonical ltac:(discriminate) (fun x y E => proj1 E)
    (fun d v0 C => C88_grid 2 1 0 2 0 1 m0 m (fun _ _ => false) (fun _ _ => false) Q1 s None (fun l => l) None d v0 (Nat.lt_0_succ _) (Nat.lt_0_succ _) eq_refl eq_refl MH SI C)
    ED eq_refl EH EP EM EU) as [_ [CT HW]].
  exists m0, m, s, v, dir, H, cls, af, ar, u, W. cbv zeta. do 10 (split; [assumption|]). split; [apply Forall_forall; intros x I; apply Qeq_bool_iff; exact (E5 x I)|]. split; [exact RW|]. split; [|exact CT].
  intros w p i B. exact (proj1 (HW W RW) w p i B).
Qed.

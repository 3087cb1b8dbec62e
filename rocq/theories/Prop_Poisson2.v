(** * C92: problems without a mass term (Poisson) in 2D *)
From Coq Require Import List Arith Bool Lia QArith Qabs Lqa.
From Verif Require Import Tree Forest SpecForest Geom SpecGeom QuadGeomFacts Solver SolverFacts Dcel SpecDcel Quad SpecQuad QuadFacts QuadInv QuadHist QuadCoords QuadStart QuadUniq Prop_QuadMesh
  Fem SpecFem ShapeFacts Dof SpecDof Dof2 SpecDof2 Dof2Hist SpecHang Basis Assemble SpecAssemble Region SpecRegion Problem2 SpecProblem2 Problem2Facts Problem2Main DofVert2 SpecDofVert2 Poly2Facts SpecInterp2 SpecExact2 Exact2Facts
  Hang SpecHang HangGeo DofVert Dirichlet1 DofVert2 Prop_Hang Prop_Balance Prop_Dof2 Prop_Solution2 Prop_Dirichlet2 FlatFacts SpecPoisson2 Prop_Exact2.
Import ListNotations.
Open Scope Q_scope.

Lemma pd_len a : (length (pd a) <= length a)%nat.
Proof. induction a as [|x a IH]; [cbn; lia|]. cbn [pd length]. apply padd_len; [lia|]. cbn [length]. lia. Qed.
Lemma pdx_len c : (length (pdx c) <= length c)%nat.
Proof. induction c as [|r c IH]; [cbn; lia|]. change (pdx (r :: c)) with (padd2 c ([] :: pdx c)). cbn [length]. apply padd2_len; [lia|]. cbn [length]. lia. Qed.
Lemma pdx_rows n c : Forall (fun r => (length r <= n)%nat) c -> Forall (fun r => (length r <= n)%nat) (pdx c).
Proof.
  induction 1 as [|r c Hr Hc IH]; [constructor|]. change (pdx (r :: c)) with (padd2 c ([] :: pdx c)). apply padd2_rows; [exact Hc|]. constructor; [cbn; lia|exact IH].
Qed.
Lemma pdy_rows n c : Forall (fun r => (length r <= n)%nat) c -> Forall (fun r => (length r <= n)%nat) (pdy c).
Proof. intros F. apply Forall_forall. intros r I. apply in_map_iff in I. destruct I as [r' [<- I]]. rewrite Forall_forall in F. pose proof (F r' I). pose proof (pd_len r'). lia. Qed.

(** a form with both parts of the gradient is definite on the continuous functions that vanish at
    the vertices with conditions *)
Theorem C92_definite pts faces m0 M e s sf bases crule erule norm terms ps marker z Z :
  mesh_history pts faces m0 (rm M) -> good_faces pts faces -> (forall p, sub_leaf (cells (rm M)) sf p -> filled (n_dofs D2 e) s p) ->
  rules_ok crule erule -> positive_rules crule erule -> (forall y, 0 <= norm y) -> resolves2 crule (S (degree e)) ->
  nonneg_terms (rm M) sf bases terms -> positive_term (rm M) sf bases terms (V1 0) -> positive_term (rm M) sf bases terms (V1 1) ->
  (forall p, In p ps <-> sub_leaf (cells (rm M)) sf p) -> anchored faces M sf marker ->
  represents2 e (rm M) sf s z Z -> continuous (face_adj faces) (cells (rm M)) sf e s z ->
  (forall v p i, sub_leaf (cells (rm M)) sf p -> boundary_vertex M sf marker v p i -> Z V0 p (corner i) == 0) ->
  bilinear_value2 M crule erule norm bases terms ps Z Z == 0 ->
  (forall p k d, sub_leaf (cells (rm M)) sf p -> dof_at s p k d -> z d == 0) /\ forall p x, sub_leaf (cells (rm M)) sf p -> in_unit x -> Z V0 p x == 0.
Proof.
  intros H GF FI RO PW PN RS NN PX PY PS AN RZ CZ BZ Z0.
  assert (FL : forall p x y, sub_leaf (cells (rm M)) sf p -> in_unit x -> in_unit y -> Z V0 p x == Z V0 p y).
  { intros p x y Lp Ux Uy. destruct (fe_poly M sf e s H GF FI z Z p RZ Lp) as [c [Lc [Rc Ec]]]. rewrite (Ec x Ux), (Ec y Uy).
    destruct (leaf_shape M sf H GF p Lp) as [Sh _].
    assert (G : forall w, In w (fst crule) -> poly2 (pdx c) w == 0 /\ poly2 (pdy c) w == 0).
    { intros w Iw. assert (Uw : in_unit w) by (apply (proj1 RO), Iw). destruct (RZ p _ w Lp Sh Uw) as [_ [CG _]].
      apply (zero_grad _ c (fun y => Z V0 p y) w _ _ Uw Ec CG);
        [apply (zero_at_nodes M sf e s H GF bases crule erule norm RO PW PN terms ps NN (fun p I => proj1 (PS p) I) (V1 0) z Z PX RZ Z0 p (proj2 (PS p) Lp) w Iw)
        |apply (zero_at_nodes M sf e s H GF bases crule erule norm RO PW PN terms ps NN (fun p I => proj1 (PS p) I) (V1 1) z Z PY RZ Z0 p (proj2 (PS p) Lp) w Iw)]. }
    apply flat2.
    - apply RS; [pose proof (pdx_len c); lia|apply pdx_rows; exact Rc|intros w Iw; apply G; exact Iw].
    - apply RS; [unfold pdy; rewrite map_length; exact Lc|apply pdy_rows; exact Rc|intros w Iw; apply G; exact Iw]. }
  assert (CO := proj1 (cont_rep M sf e s H GF (face_adj faces) z Z RZ) CZ).
  assert (LK : forall p q, linked (face_adj faces) (cells (rm M)) sf p q -> forall x y, sub_leaf (cells (rm M)) sf p -> sub_leaf (cells (rm M)) sf q -> in_unit x -> in_unit y -> Z V0 p x == Z V0 q y).
  { intros p q L. induction L as [p|p q r x' y' Lp Lq Ux' Uy' G L IH]; intros x y Lx Ly Ux Uy; [apply FL; assumption|].
    rewrite (FL p x x' Lp Ux Ux'), (CO p q x' y' Lp Lq Ux' Uy' G). apply IH; assumption. }
  assert (G : forall p x, sub_leaf (cells (rm M)) sf p -> in_unit x -> Z V0 p x == 0).
  { intros p x Lp Ux. destruct (AN p Lp) as [q [v [i [L [Lq B]]]]]. rewrite (LK p q L x (corner i) Lp Lq Ux (unit_corner' i)). exact (BZ v q i Lq B). }
  split; [|exact G]. intros p k d Lp Dk. destruct (Prop_Shape.C31_lagrange_2d e) as [LL LG].
  assert (Hk : (k < n_dofs D2 e)%nat). { destruct (FI p Lp) as [l [El [Ll _]]]. destruct Dk as [l' [El' Nl]]. rewrite El in El'. injection El' as <-. rewrite <- Ll. apply nth_error_Some. congruence. }
  destruct (nth_error (reference_nodes2 e) k) as [y|] eqn:Ey; [|apply nth_error_None in Ey; lia]. rewrite <- (node_coef M sf e s H GF FI z Z p k d y RZ Lp Dk Ey). apply G; [exact Lp|apply (LG k y Ey)].
Qed.
Print Assumptions C92_definite.

(** uniqueness *)
Theorem C92_unique pts faces m0 M e s sf bases crule erule norm terms ps marker u U w W :
  mesh_history pts faces m0 (rm M) -> good_faces pts faces -> (forall p, sub_leaf (cells (rm M)) sf p -> filled (n_dofs D2 e) s p) ->
  Forall derivative_ok bases -> rules_ok crule erule -> positive_rules crule erule -> (forall y, 0 <= norm y) -> resolves2 crule (S (degree e)) ->
  nonneg_terms (rm M) sf bases terms -> positive_term (rm M) sf bases terms (V1 0) -> positive_term (rm M) sf bases terms (V1 1) -> anchored faces M sf marker -> (forall p, In p ps <-> sub_leaf (cells (rm M)) sf p) ->
  represents2 e (rm M) sf s u U -> represents2 e (rm M) sf s w W ->
  continuous (face_adj faces) (cells (rm M)) sf e s u -> continuous (face_adj faces) (cells (rm M)) sf e s w ->
  (forall v p i, sub_leaf (cells (rm M)) sf p -> boundary_vertex M sf marker v p i -> U V0 p (corner i) == W V0 p (corner i)) ->
  (forall z Z, represents2 e (rm M) sf s z Z -> continuous (face_adj faces) (cells (rm M)) sf e s z ->
     (forall v p i, sub_leaf (cells (rm M)) sf p -> boundary_vertex M sf marker v p i -> Z V0 p (corner i) == 0) ->
     bilinear_value2 M crule erule norm bases terms ps Z U == bilinear_value2 M crule erule norm bases terms ps Z W) ->
  (forall p k d, sub_leaf (cells (rm M)) sf p -> dof_at s p k d -> u d == w d) /\
  forall der p x, derivative_ok der -> sub_leaf (cells (rm M)) sf p -> in_unit x -> U der p x == W der p x.
Proof.
  intros H GF FI DB RO PW PN RS NN PX PY AN PS RU RW CU CW BV EQ. apply (unique_of_definite pts faces m0 M e s sf bases crule erule norm terms ps marker u U w W H GF FI DB RO); try assumption.
  intros z Z RZ CZ BZ Z0. exact (proj1 (C92_definite pts faces m0 M e s sf bases crule erule norm terms ps marker z Z H GF FI RO PW PN RS NN PX PY PS AN RZ CZ BZ Z0)).
Qed.
Print Assumptions C92_unique.

(** exactness *)
Theorem C92_exact pts faces m0 m hl vl e s dv sf horder bases crule erule norm terms ps marker df dir solver order fuel keep cls af ar H st u c F :
  let M := Region.mkR m (nh (hp m0)) hl vl in
  mesh_history pts faces m0 m -> good_faces pts faces -> situation pts faces e m s sf horder -> vertex_history2 edit pts faces e m s dv ->
  (forall p k d, sub_leaf (cells m) sf p -> dof_at s p k d -> has_vertex2 dv d) ->
  Forall derivative_ok bases -> rules_ok crule erule -> Forall (term_ok2 e M sf s bases) terms -> (forall p, In p ps <-> sub_leaf (cells m) sf p) -> ps <> [] ->
  In 1%nat (map (fun t => form_dim2 (fst t)) terms) -> In 2%nat (map (fun t => form_dim2 (fst t)) terms) ->
  exact_spsolve solver -> lists_sets order -> SpecAssemble.canonical order -> df <> DSame2 -> proper_data2 df ->
  (forall d v, conditioned2 M e s sf marker true d v -> ~ hangs (face_adj faces) (cells m) sf e s d) ->
  add_dirichlet2 e M s dv marker df true sf [] = Ok dir ->
  st sf = None -> get_hanging horder e m s sf st = Ok H ->
  problem_cells2 e M s bases crule erule norm (map fst terms) ps = Ok cls ->
  assemble order (as_pairs H) dir fuel keep cls (init_forms (map (fun t => form_dim2 (fst t)) terms)) = Ok (af, ar) ->
  solve solver (seq 0 (dcount s)) (as_pairs H) dir ar = Ok u ->
  positive_rules crule erule -> (forall y, 0 <= norm y) -> resolves2 crule (S (degree e)) ->
  nonneg_terms m sf bases terms -> positive_term m sf bases terms (V1 0) -> positive_term m sf bases terms (V1 1) -> anchored faces M sf marker ->
  derivatives_of (poly2 c) F -> total_degree (degree e) c \/ aligned_faces pts faces /\ degree_each (degree e) c ->
  (forall v p i, sub_leaf (cells m) sf p -> boundary_vertex M sf marker v p i -> prescribed2 df (vx (hp m) v) (poly2 c (vx (hp m) v))) ->
  (forall z Z P, represents2 e m sf s z Z -> continuous (face_adj faces) (cells m) sf e s z ->
     (forall v p i, sub_leaf (cells m) sf p -> boundary_vertex M sf marker v p i -> Z V0 p (corner i) == 0) ->
     (forall p q x der, sub_leaf (cells m) sf p -> shape_is m p q -> in_unit x -> P der p x == F der (qmap q (fst x) (snd x))) ->
     bilinear_value2 M crule erule norm bases terms ps Z P == linear_value2 M crule erule norm bases terms ps Z) ->
  (forall p k d z, sub_leaf (cells m) sf p -> dof_at s p k d -> at_point e m s d z -> nth d u 0 == poly2 c z) /\
  forall U, represents2 e m sf s (fun d => nth d u 0) U ->
    forall p q x der, sub_leaf (cells m) sf p -> shape_is m p q -> in_unit x -> derivative_ok der -> U der p x == F der (qmap q (fst x) (snd x)).
Proof.
  intros M MH GF SI VH DB BO RO TK PS NP I1 I2 SV LS CO NS PD NH EA ES EH EP EM EU PW PN RS NN PX PY AN DF DEG BV CS.
  refine (exact_of_definite pts faces m0 m hl vl e s dv sf horder bases crule erule norm terms ps marker df dir solver order fuel keep cls af ar H st u c F
    MH GF SI VH DB BO RO TK PS NP I1 I2 SV LS CO NS PD NH EA ES EH EP EM EU _ DF DEG BV CS).
  intros z Z RZ CZ BZ Z0. assert (FI : forall p, sub_leaf (cells m) sf p -> filled (n_dofs D2 e) s p).
  { pose proof SI as [_ [_ [_ [_ [FS _]]]]]. intros p [n [En [Fn _]]]. apply FS. exists n. auto. }
  exact (proj1 (C92_definite pts faces m0 M e s sf bases crule erule norm terms ps marker z Z MH GF FI RO PW PN RS NN PX PY PS AN RZ CZ BZ Z0)).
Qed.
Print Assumptions C92_exact.

(** ** Rectangular grids: all leaves are connected *)
From Verif Require Import TreeFacts ForestFacts Grid2 GridFacts SurfFacts Node2Facts QuadSplit DcelFacts QuadInit RegionDof SpecRegionDof BoxFacts HangGeo.
From Verif Require RootFacts Prop_RegionDof Prop_RegionMark.
Open Scope Q_scope.
Lemma linked_trans adj f sf p q r : linked adj f sf p q -> linked adj f sf q r -> linked adj f sf p r.
Proof. intros A B. induction A as [p|p q' q x y Lp Lq Ux Uy G A IH]; [exact B|]. exact (lk_step adj f sf p q' r x y Lp Lq Ux Uy G (IH B)). Qed.
Lemma quarter_back i x : (i < 4)%nat -> in_unit x -> exists j y, (j < 4)%nat /\ in_unit y /\ peq (quarter j y) x.
Proof.
  intros _ [[X0 X1] [Y0 Y1]]. destruct (Qlt_le_dec (fst x) (1 # 2)) as [A|A], (Qlt_le_dec (snd x) (1 # 2)) as [B|B];
    [exists 0%nat, (2 * fst x, 2 * snd x)|exists 3%nat, (2 * fst x, 2 * snd x - 1)|exists 1%nat, (2 * fst x - 1, 2 * snd x)|exists 2%nat, (2 * fst x - 1, 2 * snd x - 1)];
    (split; [lia|]); (split; [split; cbn [fst snd]; lra|]); unfold peq, quarter, corner; cbn [nth fst snd]; split; lra.
Qed.
Section Conn.
Context (pts : list pt) (faces : list (list nat)) (m : mesh2) (Mi : minv pts faces m) (sf : option flag) (R : submesh_rooted (cells m) sf).
Notation ins := (in_sub (cells m) sf).
Notation leaf := (sub_leaf (cells m) sf).
Notation lk := (linked (face_adj faces) (cells m) sf).
Lemma kid_get p n i k : p <> [] -> fget (cells m) p = Some n -> (nth_error (n_slots n) i = Some (Some k) <-> fget (cells m) (p ++ [i]) = Some k).
Proof.
  intros Np E. destruct p as [|a p]; [congruence|]. cbn [app]. change (a :: p ++ [i]) with ((a :: p) ++ [i]). rewrite fget_app, E. cbn [nget].
  destruct (nth_error (n_slots n) i) as [[k'|]|]; split; intros Q; congruence.
Qed.
Lemma kids p n : fget (cells m) p = Some n -> fl_ok sf n -> leaf p \/ forall i, (i < 4)%nat -> exists k, nth_error (n_slots n) i = Some (Some k) /\ fl_ok sf k.
Proof.
  intros E F. pose proof (m_s _ _ _ Mi) as I. assert (Hp : here m p) by (apply here_fget; eauto). assert (Np : p <> []) by (apply (path_nonempty p Hp)).
  destruct (has_children n sf) eqn:Hc.
  - right. apply has_children_fl in Hc. destruct Hc as [i0 [k0 [E0 F0]]]. pose proof (proj1 (kid_get p n i0 k0 Np E) E0) as G0.
    assert (H0 : here m (p ++ [i0])) by (apply here_fget; eauto). destruct (s_fam m I p i0 Np H0) as [L0 FA]. intros i Li.
    pose proof (FA i Li) as Hi. pose proof Hi as Hi'. apply here_fget in Hi'. destruct Hi' as [k Ei]. exists k. split; [apply (kid_get p n i k Np E); exact Ei|].
    destruct sf as [g|]; [|exact Logic.I]. destruct R as [_ [_ HS]].
    unfold fl_ok in F0 |- *. rewrite (@RootFacts.is_marked_at _ (cells m) (p ++ [i]) k g Ei). apply (HS p i0 i); auto.
    + rewrite <- (@RootFacts.is_marked_at _ (cells m) (p ++ [i0]) k0 g G0). exact F0.
    + unfold present. rewrite Ei. auto.
  - left. exists n. split; [exact E|]. split; [exact F|]. intros i k Ei Fk. assert (T : has_children n sf = true) by (apply has_children_fl; eauto). congruence.
Qed.
(** every point of a cell of the submesh lies in a leaf below it *)
Lemma cover_leaf n : forall p x, fget (cells m) p = Some n -> fl_ok sf n -> in_unit x -> exists r y, leaf (p ++ r) /\ in_unit y /\ peq (in_root r y) x.
Proof.
  induction n as [mt d ks IH] using node_ind'. intros p x E F Ux. assert (Np : p <> []) by (apply (path_nonempty (m := m)); apply here_fget; eauto).
  destruct (kids p _ E F) as [L|K].
  - exists [], x. rewrite app_nil_r. split; [exact L|]. split; [exact Ux|]. split; reflexivity.
  - destruct (quarter_back 0 x ltac:(lia) Ux) as [j [y [Lj [Uy Ey]]]]. destruct (K j Lj) as [k [Ek Fk]].
    destruct (IH j k Ek (p ++ [j]) y (proj1 (kid_get p _ j k Np E) Ek) Fk Uy) as [r [w [Lr [Uw Ew]]]].
    exists (j :: r), w. rewrite <- app_assoc in Lr. split; [exact Lr|]. split; [exact Uw|]. cbn [in_root].
    destruct Ey as [A1 A2], Ew as [B1 B2]. split; [rewrite <- A1|rewrite <- A2]; unfold quarter; cbn [fst snd]; [rewrite B1|rewrite B2]; reflexivity.
Qed.
Lemma leaf_split p r : p <> [] -> leaf (p ++ r) -> r = [] \/ exists i r', r = i :: r' /\ (i < 4)%nat.
Proof.
  intros Np L. destruct r as [|i r]; [left; reflexivity|right]. exists i, r. split; [reflexivity|]. assert (Hh : here m (p ++ i :: r)) by (destruct L as [n [En _]]; apply here_fget; eauto).
  assert (H1 : here m (p ++ [i])). { apply (Surf2.here_prefix m (p ++ [i]) r); [destruct p; discriminate|]. rewrite <- app_assoc. exact Hh. }
  exact (proj1 (s_fam m (m_s _ _ _ Mi) p i Np H1)).
Qed.
Lemma below_linked n : forall p, fget (cells m) p = Some n -> fl_ok sf n -> forall r r', leaf (p ++ r) -> leaf (p ++ r') -> lk (p ++ r) (p ++ r').
Proof.
  induction n as [mt d ks IH] using node_ind'. intros p E F r r' Lr Lr'. assert (Np : p <> []) by (apply (path_nonempty (m := m)); apply here_fget; eauto).
  assert (II : forall c, leaf c -> ins c) by (intros c [n [En [Fn _]]]; exists n; auto).
  destruct (kids p _ E F) as [L|K].
  - rewrite (leaf_below pts faces m sf Mi R p r L (II _ Lr)), (leaf_below pts faces m sf Mi R p r' L (II _ Lr')). apply lk_same.
  - assert (NL : ~ leaf p). { intros [n [En [_ HN]]]. rewrite E in En. injection En as <-. destruct (K 0%nat ltac:(lia)) as [k [Ek Fk]]. exact (HN _ _ Ek Fk). }
    assert (SP : forall r, leaf (p ++ r) -> exists i r1, r = i :: r1 /\ (i < 4)%nat).
    { intros r0 L0. destruct (leaf_split p r0 Np L0) as [->|X]; [rewrite app_nil_r in L0; contradiction|exact X]. }
    destruct (SP r Lr) as [i [r1 [-> Li]]]. destruct (SP r' Lr') as [j [r2 [-> Lj]]].
    assert (CT : forall c, (c < 4)%nat -> exists a y, leaf ((p ++ [c]) ++ a) /\ in_unit y /\ peq (in_root (c :: a) y) (1 # 2, 1 # 2)).
    { intros c Lc. destruct (K c Lc) as [k [Ek Fk]].
      destruct (cover_leaf k (p ++ [c]) (1 - fst (corner c), 1 - snd (corner c)) (proj1 (kid_get p _ c k Np E) Ek) Fk) as [a [y [La [Uy Ey]]]].
      { destruct c as [|[|[|[|c]]]]; [| | | |lia]; split; cbn; lra. }
      exists a, y. split; [exact La|]. split; [exact Uy|]. destruct Ey as [A1 A2]. cbn [in_root]. unfold peq, quarter. cbn [fst snd] in *. rewrite A1, A2. split; ring. }
    destruct (CT i Li) as [ai [yi [La [Ui Ei]]]]. destruct (CT j Lj) as [aj [yj [Lb [Uj Ej]]]].
    destruct (K i Li) as [ki [Eki Fki]]. destruct (K j Lj) as [kj [Ekj Fkj]].
    assert (A := IH i ki Eki (p ++ [i]) (proj1 (kid_get p _ i ki Np E) Eki) Fki r1 ai). assert (B := IH j kj Ekj (p ++ [j]) (proj1 (kid_get p _ j kj Np E) Ekj) Fkj aj r2).
    assert (SA : forall a l, (p ++ [a]) ++ l = p ++ a :: l) by (intros a l; rewrite <- app_assoc; reflexivity).
    rewrite (SA i r1), (SA i ai) in A. rewrite (SA j aj), (SA j r2) in B. rewrite (SA i ai) in La. rewrite (SA j aj) in Lb.
    eapply linked_trans; [apply A; assumption|]. eapply lk_step; [exact La|exact Lb|exact Ui|exact Uj| |apply B; assumption].
    rewrite !place_app by exact Np. unfold place. constructor. apply root_peq. eapply peq_t; [exact Ei|apply peq_s; exact Ej].
Qed.
End Conn.
Section GridConn.
Context (nx ny : nat) (xa xb ya yb : Q) (m : mesh2) (sf : option flag).
Local Notation pts := (grid_points xa xb ya yb nx ny).
Local Notation faces := (grid_faces nx ny).
Context (Mi : minv pts faces m) (R : submesh_rooted (cells m) sf) (RS : forall i, (i < nx * ny)%nat -> in_sub (cells m) sf [i]).
Notation leaf := (sub_leaf (cells m) sf).
Notation lk := (linked (face_adj faces) (cells m) sf).
Lemma linked_sym p q : lk p q -> lk q p.
Proof.
  intros A. induction A as [p|p q' q x y Lp Lq Ux Uy G A IH]; [apply lk_same|]. apply (linked_trans _ _ _ _ _ _ IH).
  apply (lk_step _ _ _ q' p p y x Lq Lp Uy Ux); [|apply lk_same]. exact (grid_sym xa xb ya yb nx ny m Mi _ _ G).
Qed.
Lemma root_cover r x : (r < nx * ny)%nat -> in_unit x -> exists q y, leaf (r :: q) /\ in_unit y /\ peq (in_root q y) x.
Proof. intros L U. destruct (RS r L) as [n [E F]]. exact (cover_leaf pts faces m Mi sf R n [r] x E F U). Qed.
Definition rl (a b : nat) : Prop := forall q q', leaf (a :: q) -> leaf (b :: q') -> lk (a :: q) (b :: q').
Lemma rl_refl a : (a < nx * ny)%nat -> rl a a.
Proof. intros L q q' A B. destruct (RS a L) as [n [E F]]. exact (below_linked pts faces m Mi sf R n [a] E F q q' A B). Qed.
Lemma rl_sym a b : rl a b -> rl b a.
Proof. intros A q q' X Y. apply linked_sym. apply A; assumption. Qed.
Lemma rl_trans a b c : (b < nx * ny)%nat -> rl a b -> rl b c -> rl a c.
Proof.
  intros L A B q q' X Y. destruct (root_cover b (0, 0) L) as [k [y [Lk _]]]; [split; cbn; lra|].
  apply (linked_trans _ _ _ _ (b :: k)); [apply A|apply B]; assumption.
Qed.
Lemma rl_glue a b x x' : (a < nx * ny)%nat -> (b < nx * ny)%nat -> in_unit x -> in_unit x' -> glued (face_adj faces) (a, x) (b, x') -> rl a b.
Proof.
  intros La Lb U U' G q q' A B. destruct (root_cover a x La U) as [k [y [Lk [Uy Ey]]]]. destruct (root_cover b x' Lb U') as [k' [y' [Lk' [Uy' Ey']]]].
  apply (linked_trans _ _ _ _ (a :: k)); [apply rl_refl; assumption|]. apply (lk_step _ _ _ _ (b :: k') _ y y' Lk Lk' Uy Uy'); [|apply rl_refl; assumption].
  apply (gl_trans _ _ (a, x)); [apply gl_same; exact Ey|]. apply (gl_trans _ _ (b, x')); [exact G|]. apply gl_same. apply peq_s. exact Ey'.
Qed.
Lemma rl_row iy ix : (ix < nx)%nat -> (iy < ny)%nat -> rl (iy * nx + 0) (iy * nx + ix).
Proof.
  induction ix as [|ix IH]; intros Lx Ly; [apply rl_refl; nia|]. apply (rl_trans _ (iy * nx + ix)); [nia|apply IH; lia|].
  apply (rl_glue _ _ (1, 0) (0, 0)); [nia|nia|split; cbn; lra|split; cbn; lra|]. replace (S ix) with (ix + 1)%nat by lia. apply glue_x; try assumption; try lia; try reflexivity; split; lra.
Qed.
Lemma rl_col iy : (0 < nx)%nat -> (iy < ny)%nat -> rl 0 (iy * nx + 0).
Proof.
  intros Px. induction iy as [|iy IH]; intros Ly; [apply rl_refl; nia|]. apply (rl_trans _ (iy * nx + 0)); [nia|apply IH; lia|].
  apply (rl_glue _ _ (0, 1) (0, 0)); [nia|nia|split; cbn; lra|split; cbn; lra|]. replace (S iy) with (iy + 1)%nat by lia. apply glue_y; try assumption; try lia; try reflexivity; split; lra.
Qed.
Lemma rl_all a : (a < nx * ny)%nat -> rl 0 a.
Proof.
  intros L. destruct (grid_cell nx ny a L) as [ix [iy [Lx [Ly ->]]]]. apply (rl_trans _ (iy * nx + 0)); [nia|apply rl_col; lia|apply rl_row; assumption].
Qed.
Lemma leaf_root p : leaf p -> exists r q, p = r :: q /\ (r < nx * ny)%nat.
Proof.
  intros [n [E _]]. assert (Hp : here m p) by (apply here_fget; eauto). destruct p as [|r q]; [apply path_nonempty in Hp; congruence|]. exists r, q. split; [reflexivity|].
  assert (H1 : here m [r]) by (apply (Surf2.here_prefix m [r] q); [discriminate|exact Hp]). apply (m_roots _ _ _ Mi) in H1. rewrite grid_faces_length in H1. lia.
Qed.
Lemma all_linked p q : leaf p -> leaf q -> lk p q.
Proof.
  intros A B. destruct (leaf_root p A) as [r [k [-> Lr]]], (leaf_root q B) as [r' [k' [-> Lr']]].
  apply (rl_trans r 0 r'); [nia|apply rl_sym; apply rl_all; exact Lr|apply rl_all; exact Lr'|exact A|exact B].
Qed.
End GridConn.

Lemma root_origin q : forall y, in_unit y -> peq (in_root q y) (0, 0) -> peq y (0, 0).
Proof.
  assert (CP : forall i, 0 <= fst (corner i) /\ 0 <= snd (corner i)) by (intros i; destruct i as [|[|[|[|i]]]]; cbn; try lra; destruct i; cbn; lra).
  assert (UP : forall q y, in_unit y -> 0 <= fst (in_root q y) /\ 0 <= snd (in_root q y)).
  { clear q. induction q as [|i q IH]; intros y U; [destruct U as [[A _] [B _]]; split; assumption|]. cbn [in_root]. destruct (IH y U) as [C D]. destruct (CP i) as [C1 D1]. unfold quarter. cbn [fst snd]. split; lra. }
  induction q as [|i q IH]; intros y U E; [exact E|]. apply IH; [exact U|]. cbn [in_root] in E. destruct (UP q y U) as [C D]. destruct (CP i) as [C1 D1]. destruct E as [E1 E2]. unfold quarter in E1, E2. cbn [fst snd] in E1, E2. split; cbn [fst snd]; lra.
Qed.
Lemma sub_leaf_in (f : forest (list nat)) sf p : sub_leaf f sf p -> in_sub f sf p.
Proof. intros [n [En [Fn _]]]. exists n. auto. Qed.
(** on a grid some vertex of the boundary belongs to a leaf of the submesh *)
Theorem C92_grid nx ny xa xb ya yb m0 m hl vl e s sf order : (0 < nx)%nat -> (0 < ny)%nat -> xa < xb -> ya < yb ->
  mesh_history (grid_points xa xb ya yb nx ny) (grid_faces nx ny) m0 m -> situation (grid_points xa xb ya yb nx ny) (grid_faces nx ny) e m s sf order ->
  (forall i, (i < nx * ny)%nat -> in_sub (cells m) sf [i]) -> anchored (grid_faces nx ny) (Region.mkR m (nh (hp m0)) hl vl) sf None.
Proof.
  intros Px Py Hx Hy MH SI RS. set (M := Region.mkR m (nh (hp m0)) hl vl). pose proof SI as [DH [T [R [_ [FS _]]]]]. pose proof (history_minv _ _ _ _ MH) as Mi.
  destruct (root_cover nx ny xa xb ya yb m sf Mi R RS 0%nat (0, 0)) as [q0 [y0 [L0 [U0 E0]]]]; [nia|split; cbn; lra|].
  assert (Y0 : peq y0 (0, 0)) by (apply (root_origin q0); assumption).
  assert (H0 : here m (0%nat :: q0)) by (destruct L0 as [n [En _]]; apply here_fget; eauto).
  pose proof (FS (0%nat :: q0) (sub_leaf_in _ _ _ L0)) as [l [_ [_ FD]]]. destruct (node2_corner e 0 T ltac:(lia)) as [K0 C0].
  destruct (FD 0%nat) as [d Dd]; [exact K0|]. set (v := hbase (he (hp m) (side m (0%nat :: q0) 0))).
  assert (Sd : is_side m (0%nat :: q0) 0 (side m (0%nat :: q0) 0)) by (apply (is_side_iff _ _ _ _ (m_s _ _ _ Mi)); split; [exact H0|split; [lia|reflexivity]]).
  assert (CD : exists v j, corner_dof e m s sf d v /\ (j < 4)%nat /\ on_line xa xb ya yb j (vx (hp m) v)).
  { exists v, 0%nat. split; [exists (0%nat :: q0), 0%nat, 0%nat, (side m (0%nat :: q0) 0)|].
    - split; [exact L0|]. split; [exact Dd|]. split; [exact Sd|]. split; [reflexivity|]. exists (node2 e 0). split; [apply Node2Facts.nodes2_nth; exact K0|exact C0].
    - split; [lia|]. apply (line_peq _ _ _ _ _ _ _ (peq_s _ _ (corner_plane xa xb ya yb nx ny m0 m MH (0%nat :: q0) 0 H0 ltac:(lia)))).
      assert (EQ : peq (in_root q0 (corner 0)) (0, 0)). { apply (peq_t _ (in_root q0 y0)); [apply root_peq; apply peq_s; exact Y0|exact E0]. }
      pose proof (grid_plane xa xb ya yb nx ny m Mi 0 0 (in_root q0 (corner 0)) Px Py) as GP. apply (line_peq _ _ _ _ _ _ _ (peq_s _ _ GP)).
      unfold on_line. cbn [snd]. destruct EQ as [_ EQ]. rewrite EQ. cbn [snd]. change (Qn 0) with 0. ring. }
  apply (Prop_RegionDof.vertex_iff nx ny xa xb ya yb m0 M e s sf Px Py Hx Hy MH eq_refl R d) in CD. destruct CD as [x [p1 [k [Kx [F [So Dk]]]]]].
  destruct x as [w|h|c]; try discriminate Kx. destruct So as [y [Ny [i [h [Sh [Ew _]]]]]].
  assert (L1 : sub_leaf (cells m) sf p1).
  { destruct (Prop_RegionMark.C68_get _ _ m0 M sf None EVertex true MH eq_refl R) as [out [_ [_ [J1 J2]]]]. apply (J2 (Vtx w) p1). apply J1. split; [reflexivity|]. split; [exact F|discriminate]. }
  intros p Lp. exists p1, w, i. split; [exact (all_linked nx ny xa xb ya yb m sf Mi R RS p p1 Lp L1)|]. split; [exact L1|].
  split; [exact F|]. split; [discriminate|]. exists h. split; [exact Sh|exact Ew].
Qed.
Print Assumptions C92_grid.
(** ** The Laplace equation with u = x on the boundary of a refined mesh *)
From Verif Require Import Kernel SpecKernel Prop_Problem2 Prop_Interp2.
From Verif Require ForestFacts Prop_Assemble ElimSolver Prop_Grid.
Open Scope Q_scope.
Definition pe_bil : list (form2 * (path -> pt -> Q)) :=
  [(mkForm2 rx_one (Some 0%nat) (Some 0%nat) Dx2 None, fun _ _ => 1); (mkForm2 rx_one (Some 1%nat) (Some 1%nat) Dx2 None, fun _ _ => 1)].
Definition pe_lin : list (form2 * (path -> pt -> Q)) :=
  [(mkForm2 rx_one (Some 0%nat) None Dx2 None, fun _ _ => 1); (mkForm2 xe_zero (Some 1%nat) None Dx2 None, fun _ _ => 0)].
Definition pe_terms := pe_bil ++ pe_lin.
Lemma pe_ok e M sf s : Forall (term_ok2 e M sf s rx_bases) pe_terms.
Proof.
  pose proof (xe_ok e M sf s) as R. unfold xe_terms, xe_bil, xe_lin in R. cbn [app] in R. rewrite Forall_forall in R. apply Forall_forall. intros t It. apply R. cbn in It |- *. tauto.
Qed.
Lemma pe_rhs m sf F : derivatives_of (poly2 xe_c) F -> Forall2 (right_hand_side m sf rx_bases F) pe_bil pe_lin.
Proof.
  intros DF. pose proof (xe_rhs m sf F DF) as R. unfold xe_bil, xe_lin in R. inversion R as [|? ? ? ? A R1]; subst. inversion R1 as [|? ? ? ? B R2]; subst. constructor; [exact A|constructor; [exact B|constructor]].
Qed.
Definition pe_check (r : res (mesh2 * (mesh2 * (dofs * dverts2)))) : bool :=
  match r with Err _ => false | Ok (m0, (m, (s, v))) =>
  match add_dirichlet2 Q1 (rx_M m0 m) s v None (DMap2 fst) true None [] with Err _ => false | Ok dir =>
  match get_hanging (fun l => l) Q1 m s None (fun _ => None) with Err _ => false | Ok H =>
  let ps := map fst (fget_leaves (cells m) None None BreadthFirst) in
  match problem_cells2 Q1 (rx_M m0 m) s rx_bases xe_crule Prop_Problem2.qx_erule Prop_Problem2.qx_norm (map fst (pe_terms)) ps with Err _ => false | Ok cls =>
  match assemble Prop_Assemble.sorted_set (as_pairs H) dir 400 true cls (init_forms (map (fun t => form_dim2 (fst t)) (pe_terms))) with Err _ => false | Ok (af, ar) =>
  match solve ElimSolver.gauss_solver (seq 0 (dcount s)) (as_pairs H) dir ar with Err _ => false | Ok u =>
    (length ps =? 5)%nat && (length H =? 1)%nat && (length dir =? 9)%nat && (length u =? 11)%nat
  end end end end end end.
Lemma pe_run : pe_check (vgrid 2 1 2 1 Q1 case_cs) = true.
Proof. vm_cast_no_check (eq_refl true). Qed.
Example C92_case : exists m0 m s v dir H cls af ar u ps, let M := rx_M m0 m in
  mesh_history (grid_points 0 2 0 1 2 1) (grid_faces 2 1) m0 m /\ situation (grid_points 0 2 0 1 2 1) (grid_faces 2 1) Q1 m s None (fun l => l) /\
  length ps = 5%nat /\ length dir = 9%nat /\ length H = 1%nat /\ length u = 11%nat /\
  get_hanging (fun l => l) Q1 m s None (fun _ => None) = Ok H /\ add_dirichlet2 Q1 M s v None (DMap2 fst) true None [] = Ok dir /\
  problem_cells2 Q1 M s rx_bases xe_crule Prop_Problem2.qx_erule Prop_Problem2.qx_norm (map fst (pe_terms)) ps = Ok cls /\
  assemble Prop_Assemble.sorted_set (as_pairs H) dir 400 true cls (init_forms (map (fun t => form_dim2 (fst t)) (pe_terms))) = Ok (af, ar) /\
  solve ElimSolver.gauss_solver (seq 0 (dcount s)) (as_pairs H) dir ar = Ok u /\
  forall p k d z, sub_leaf (cells m) None p -> dof_at s p k d -> at_point Q1 m s d z -> nth d u 0 == fst z.
Proof.
  pose proof pe_run as E. destruct (vgrid 2 1 2 1 Q1 case_cs) as [[m0 [m [s v]]]|] eqn:EV; [|discriminate E]. unfold pe_check in E.
  destruct (vgrid_history 2 1 2 1 Q1 case_cs m0 m s v (grid_ok 2 1 2 1) (Prop_QuadMesh.grid_quads 2 1) EV) as [[m1 [MH ->]] VH].
  destruct (vgrid_filled 2 1 2 1 Q1 (Some (CSplit None [1%nat])) m0 m s v EV ltac:(discriminate)) as [F1 F2].
  assert (SI := vgrid_situation 2 1 2 1 Q1 (Some (CSplit None [1%nat])) m0 m s v eq_refl EV ltac:(discriminate)).
  destruct (add_dirichlet2 Q1 (rx_M m0 m) s v None (DMap2 fst) true None []) as [dir|] eqn:ED; [|discriminate E].
  destruct (get_hanging (fun l => l) Q1 m s None (fun _ => None)) as [H|] eqn:EH; [|discriminate E].
  set (ps := map fst (fget_leaves (cells m) None None BreadthFirst)) in E.
  destruct (problem_cells2 _ _ _ _ _ _ _ _ _) as [cls|] eqn:EP; [|discriminate E].
  destruct (assemble _ _ _ _ _ _ _) as [[af ar]|] eqn:EM; [|discriminate E].
  destruct (solve _ _ _ _ _) as [u|] eqn:EU; [|discriminate E].
  apply andb_true_iff in E. destruct E as [E E4]. apply andb_true_iff in E. destruct E as [E E3]. apply andb_true_iff in E. destruct E as [E1 E2].
  apply Nat.eqb_eq in E1, E2, E3, E4.
  assert (GF := Prop_Problem2.grid_good 2 1 0 2 0 1 eq_refl eq_refl).
  assert (PS : forall p, In p ps <-> sub_leaf (cells m) None p).
  { intros p. unfold ps. rewrite in_map_iff. split.
    - intros [[p' n] [Ep Ip]]. cbn [fst] in Ep. subst p'. apply ForestFacts.in_fget_leaves in Ip. exists n. tauto.
    - intros [n [Fn Ln]]. exists (p, n). split; auto. apply ForestFacts.in_fget_leaves. simpl. tauto. }
  assert (NP : ps <> []) by (intros X; rewrite X in E1; discriminate E1).
  assert (RO : rules_ok xe_crule Prop_Problem2.qx_erule).
  { split; (split; [reflexivity|]); intros x I; cbn in I; [destruct I as [<-|[<-|[<-|[<-|[]]]]]; split; cbn; lra|destruct I as [<-|[<-|[<-|[]]]]; split; lra]. }
  assert (PW : positive_rules xe_crule Prop_Problem2.qx_erule).
  { split; intros x I; cbn in I; [destruct I as [<-|[<-|[<-|[<-|[]]]]]; lra|destruct I as [<-|[<-|[<-|[]]]]; lra]. }
  assert (PN : forall y, 0 <= Prop_Problem2.qx_norm y).
  { intros y. unfold Prop_Problem2.qx_norm. pose proof (Qabs_nonneg (fst y)). pose proof (Qabs_nonneg (snd y)). lra. }
  assert (RS : resolves2 xe_crule (S (degree Q1))).
  { apply (C91_resolves xe_crule 2 [0; 1%Q] [0; 1%Q]); [cbn; lia|cbn; lia| | |].
    - intros i j Hij. cbn in Hij. assert (i = 0 /\ j = 1)%nat as [-> ->] by lia. cbn. lra.
    - intros i j Hij. cbn in Hij. assert (i = 0 /\ j = 1)%nat as [-> ->] by lia. cbn. lra.
    - intros x y [<-|[<-|[]]] [<-|[<-|[]]]; cbn; tauto. }
  assert (DB : Forall derivative_ok rx_bases) by (repeat (constructor; [cbn; auto; lia|]); constructor).
  assert (NN : nonneg_terms m None rx_bases (pe_terms)).
  { intros t i j It Ei Ej. cbn in It. destruct It as [<-|[<-|[<-|[<-|[]]]]]; cbn in Ei, Ej; try discriminate Ej; injection Ei as <-; injection Ej as <-; (split; [reflexivity|]); intros; cbn; lra. }
  assert (PX0 : positive_term m None rx_bases pe_terms (V1 0)).
  { exists (mkForm2 rx_one (Some 0%nat) (Some 0%nat) Dx2 None, fun _ _ => 1), 0%nat. split; [cbn; tauto|]. do 5 (split; [reflexivity|]). intros; cbn; lra. }
  assert (PY0 : positive_term m None rx_bases pe_terms (V1 1)).
  { exists (mkForm2 rx_one (Some 1%nat) (Some 1%nat) Dx2 None, fun _ _ => 1), 1%nat. split; [cbn; tauto|]. do 5 (split; [reflexivity|]). intros; cbn; lra. }
  assert (AN : anchored (grid_faces 2 1) (rx_M m0 m) None None).
  { apply (C92_grid 2 1 0 2 0 1 m0 m (fun _ _ => false) (fun _ _ => false) Q1 s None (fun l => l) (Nat.lt_0_succ _) (Nat.lt_0_succ _) eq_refl eq_refl MH SI).
    intros i Li. pose proof (history_minv _ _ _ _ MH) as Mi. assert (Hi : here m [i]) by (apply (m_roots _ _ _ Mi); exact Li). apply here_fget in Hi. destruct Hi as [n En]. exists n. split; [exact En|exact Logic.I]. }
  destruct (C90_derivatives xe_c) as [F DF].
  assert (TD : total_degree (degree Q1) xe_c) by (intros i r Er; destruct i as [|[|i]]; [left; injection Er as <-; reflexivity|right; injection Er as <-; cbn; lia|destruct i; discriminate Er]).
  assert (VR : vertex_history2 edit (grid_points 0 2 0 1 2 1) (grid_faces 2 1) Q1 m s v) by exact VH.
  assert (PX : forall z, poly2 xe_c z == fst z) by (intros z; cbn; ring).
  destruct (C92_exact _ _ m0 m (fun _ _ => false) (fun _ _ => false) Q1 s v None (fun l => l) rx_bases xe_crule Prop_Problem2.qx_erule Prop_Problem2.qx_norm (pe_terms) ps None (DMap2 fst) dir ElimSolver.gauss_solver Prop_Assemble.sorted_set 400%nat true cls af ar H (fun _ => None) u xe_c F
    MH GF SI VR F2 DB RO (pe_ok Q1 (rx_M m0 m) None s) PS NP ltac:(cbn; tauto) ltac:(cbn; tauto) ElimSolver.gauss_solver_exact Prop_Assemble.sorted_lists Prop_Assemble.sorted_canonical ltac:(discriminate) (fun x y E => proj1 E)
    (fun d v0 C => C88_grid 2 1 0 2 0 1 m0 m (fun _ _ => false) (fun _ _ => false) Q1 s None (fun l => l) None d v0 (Nat.lt_0_succ _) (Nat.lt_0_succ _) eq_refl eq_refl MH SI C)
    ED eq_refl EH EP EM EU PW PN RS NN PX0 PY0 AN DF (or_introl TD)) as [HU _].
  - intros w p i _ _. cbn. apply PX.
  - intros z Z P RZ CZ BZ HP. exact (C91_weak_form _ _ m0 (rx_M m0 m) None rx_bases xe_crule Prop_Problem2.qx_erule Prop_Problem2.qx_norm pe_bil pe_lin ps Z P F MH RO (fun p I => proj1 (PS p) I) (pe_rhs m None F DF) HP).
  - exists m0, m, s, v, dir, H, cls, af, ar, u, ps. cbv zeta. do 11 (split; [assumption|]). intros p k d z Lp Dk Az. rewrite (HU p k d z Lp Dk Az). apply PX.
Qed.
Print Assumptions C92_case.

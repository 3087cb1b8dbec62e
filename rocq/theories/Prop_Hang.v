(** * C51, C52: hanging nodes *)
From Coq Require Import List Arith Bool Lia QArith Lqa Permutation.
From Verif Require Import Tree Forest Geom SpecGeom Dcel SpecDcel Quad SpecForest TreeFacts ForestFacts QuadFacts QuadSplit QuadInv SpecQuad QuadNb
  DcelFacts QuadInit QuadUniq QuadStart QuadCoords QuadHist Prop_QuadMesh BalSets Prop_Balance Fem SpecFem ShapeFacts Prop_Shape Prop_Inherit Dof SpecDof DofFacts DofInv Dof2 SpecDof2
  SurfFacts Node2Facts VertNb Surf2 Dof2Facts Dof2Hist Grid2 GridFacts Prop_Dof2 Solver SpecAssemble Hang SpecHang HangRef HangRun HangGeo.
Import ListNotations.
Open Scope nat_scope.

(** The situation: one dof handler of a continuous element; no refinement since the
    first distribution (labels may change, submeshes may be distributed); the
    submesh is 2:1 balanced and all its cells have their dofs.  [order]: how Python
    lists the sets of slots. *)
Definition situation (pts : list pt) (faces : list (list nat)) (e : elem) (m : mesh2) (s : dofs) (sf : option flag) (order : list nat -> list nat) : Prop :=
  dof_history2 relabel pts faces e m s /\ torn e = false /\ submesh_rooted (cells m) sf /\ two_to_one (face_adj faces) (cells m) sf /\
  (forall p, in_sub (cells m) sf p -> filled (n_dofs D2 e) s p) /\ (forall l, Permutation (order l) l).

Lemma situation_facts pts faces e m s sf order : situation pts faces e m s sf order ->
  quad_faces faces /\ minv pts faces m /\ wf (nd2 e) s /\ classes (same faces e) s /\ (forall p, in_sub (cells m) sf p -> complete e s p) /\
  (forall d p k, slot s p k = Some d -> d < dcount s).
Proof.
  intros [H [T [_ [_ [F _]]]]]. destruct (history_good relabel pts faces e m s relabel_edit H) as [[m0 MH] _]. pose proof (history_minv _ _ _ _ MH) as M.
  destruct MH as [_ [QF _]]. destruct (history_inv pts faces e m s T H) as [P [[W B] [CL _]]]. split; auto. split; auto. split; auto. split; auto. split.
  - intros p Hp k Lk. destruct (F p Hp) as [l [_ [_ Fk]]]. destruct (Fk k Lk) as [d Hd]. apply slot_dof in Hd. congruence.
  - intros d p k E. apply B. eauto.
Qed.

(** A function satisfies the constraints that get_hanging_nodes returns if and only
    if it is continuous. *)
Theorem C51_continuous pts faces e m s sf order st : situation pts faces e m s sf order -> st sf = None ->
  exists H, get_hanging order e m s sf st = Ok H /\ forall u, satisfies u H <-> continuous (face_adj faces) (cells m) sf e s u.
Proof.
  intros S ST. pose proof S as [_ [T [R [TT [_ PO]]]]]. destruct (situation_facts _ _ _ _ _ _ _ S) as [QF [M [WF [CL [FI _]]]]].
  destruct (set_run order pts faces m e s sf PO QF M T R FI) as [H [E [A B]]]. exists H. split; [unfold get_hanging; rewrite ST, E; reflexivity|].
  intro u. rewrite (satisfies_prods order pts faces m e s sf PO QF M T R FI CL TT u H A B).
  apply (prods_continuous order pts faces m e s sf PO QF M T R FI WF CL TT).
Qed.
Print Assumptions C51_continuous.

(** The dofs it constrains are those of the nodes that are on the boundary of a
    leaf, but not at one of its nodes. *)
Theorem C51_which pts faces e m s sf order st H : situation pts faces e m s sf order -> st sf = None -> get_hanging order e m s sf st = Ok H ->
  forall d, In d (map fst H) <-> hangs (face_adj faces) (cells m) sf e s d.
Proof.
  intros S ST. pose proof S as [_ [T [R [TT [_ PO]]]]]. destruct (situation_facts _ _ _ _ _ _ _ S) as [QF [M [WF [CL [FI _]]]]].
  destruct (set_run order pts faces m e s sf PO QF M T R FI) as [H' [E [A B]]]. unfold get_hanging. rewrite ST, E. cbn [bind]. intros [= ->] d.
  rewrite (hangs_iff order pts faces m e s sf QF M T R FI TT d). split.
  - intro Hd. apply in_map_iff in Hd. destruct Hd as [y [Ey Hy]]. eauto.
  - intros [y [Py <-]]. auto.
Qed.
Print Assumptions C51_which.

(** The coefficients of a constraint sum to one. *)
Lemma sum_combine (sup : list nat) (cs : list Q) : length sup = length cs -> (sumQ (map (fun ac => snd ac * 1) (combine sup cs)) == sumQ cs)%Q.
Proof. revert cs. induction sup as [|a sup IH]; intros [|c cs] L; try discriminate L; cbn; [reflexivity|]. rewrite IH by (cbn in L; lia). ring. Qed.
Lemma const_value e s p x v : value_at e s (fun _ => 1%Q) p x v -> (v == 1)%Q.
Proof.
  intros [ds [_ [_ [l [L [G E]]]]]]. destruct (C31_partition_of_unity e) as [_ P]. destruct (P x) as [[l' [L' [G' E']]] _].
  rewrite <- E, <- E'. clear E E' P. assert (X : forall n f, length l = n -> length l' = n -> (forall i v, nth_error l i = Some v -> bind (f i) (fun w => Ok (1 * w)%Q) = Ok v) ->
    (forall i v, nth_error l' i = Some v -> f i = Ok v) -> (sumQ l == sumQ l')%Q).
  { clear. revert l'. induction l as [|a l IH]; intros [|b l'] n f L1 L2 A B; cbn in L1, L2; try lia; [reflexivity|]. cbn [sumQ].
    pose proof (A 0 a eq_refl) as A0. pose proof (B 0 b eq_refl) as B0. rewrite B0 in A0. cbn [bind] in A0. injection A0 as A0.
    destruct n as [|n]; [discriminate L1|].
    rewrite (IH l' n (fun i => f (S i))); [rewrite <- A0; ring|lia|lia|intros i v; apply (A (S i))|intros i v; apply (B (S i))]. }
  apply (X (n_dofs D2 e) (fun k => phi2 e k x)); auto.
Qed.
Theorem C51_coefficients pts faces e m s sf order st H d sup cs : situation pts faces e m s sf order -> st sf = None -> get_hanging order e m s sf st = Ok H ->
  In (d, (sup, cs)) H -> length sup = length cs /\ (sumQ cs == 1)%Q.
Proof.
  intros S ST EH Hd. pose proof S as [_ [T [R [TT [_ PO]]]]]. destruct (situation_facts _ _ _ _ _ _ _ S) as [QF [M [WF [CL [FI _]]]]].
  assert (L : length sup = length cs).
  { destruct (set_run order pts faces m e s sf PO QF M T R FI) as [H' [E [A B]]]. unfold get_hanging in EH. rewrite ST, E in EH. cbn [bind] in EH. injection EH as ->.
    apply (prod_shape order pts faces m e s sf PO QF M T R FI CL TT _ (A _ Hd)). }
  split; auto. destruct (C51_continuous pts faces e m s sf order st S ST) as [H' [E C]]. assert (H' = H) by congruence. subst H'.
  assert (Z : satisfies (fun _ => 1%Q) H).
  { apply C. intros p q x y v w _ _ _ _ _ V1 V2. rewrite (const_value _ _ _ _ _ V1), (const_value _ _ _ _ _ V2). reflexivity. }
  rewrite <- (sum_combine sup cs L). symmetry. apply (Z d sup cs Hd).
Qed.
Print Assumptions C51_coefficients.

(** ** On a rectangular grid: one value at every point of the plane *)
(** the value [v] in the cell [p] at the point [z] of the plane *)
Definition value_in (e : elem) (m : mesh2) (s : dofs) (u : nat -> Q) (p : path) (z : pt) (v : Q) : Prop :=
  exists c x v0 v1 v2 v3, fget (cells m) p = Some c /\ coords m c = [v0; v1; v2; v3] /\ unit_pt x /\
    peq z (qmap (v0, v1, v2, v3) (fst x) (snd x)) /\ value_at e s u p x v.
Definition continuous_in_plane (e : elem) (m : mesh2) (s : dofs) (sf : option flag) (u : nat -> Q) : Prop :=
  forall p q z v w, sub_leaf (cells m) sf p -> sub_leaf (cells m) sf q -> value_in e m s u p z v -> value_in e m s u q z w -> (v == w)%Q.
Theorem C51_grid (xa xb ya yb : Q) nx ny e m s sf order st : (xa < xb)%Q -> (ya < yb)%Q ->
  situation (grid_points xa xb ya yb nx ny) (grid_faces nx ny) e m s sf order -> st sf = None ->
  exists H, get_hanging order e m s sf st = Ok H /\ forall u, satisfies u H <-> continuous_in_plane e m s sf u.
Proof.
  intros Hx Hy S ST. destruct (C51_continuous _ _ e m s sf order st S ST) as [H [E C]]. exists H. split; auto. intro u. rewrite C.
  destruct (situation_facts _ _ _ _ _ _ _ S) as [QF [M _]].
  assert (RT : forall p, here m p -> hd 0 p < nx * ny).
  { intros p Hp. destruct p as [|r p]; [destruct (here_ne m _ Hp); auto|]. cbn [hd]. rewrite <- grid_faces_length. apply (m_roots _ _ _ M).
    apply (here_prefix m [r] p); [discriminate|exact Hp]. }
  split.
  - intros Cu p q z v w Lp Lq [c [x [v0 [v1 [v2 [v3 [Ec [Ev [Ux [Ez V]]]]]]]]]] [c' [y [w0 [w1 [w2 [w3 [Ec' [Ew [Uy [Ez' W]]]]]]]]]].
    assert (Hp : here m p) by (apply here_fget; eauto). assert (Hq : here m q) by (apply here_fget; eauto).
    assert (Q1 : cquad m p = (v0, v1, v2, v3)) by (rewrite <- (coords_quad m p c (m_s _ _ _ M) Ec), Ev; reflexivity).
    assert (Q2 : cquad m q = (w0, w1, w2, w3)) by (rewrite <- (coords_quad m q c' (m_s _ _ _ M) Ec'), Ew; reflexivity).
    rewrite <- Q1 in Ez. rewrite <- Q2 in Ez'. apply (Cu p q x y v w Lp Lq Ux Uy); auto.
    apply (grid_one_point xa xb ya yb nx ny m M Hx Hy); auto; try (apply unit_root; auto).
    pose proof (plane_place _ _ m M p x Hp) as P1. pose proof (plane_place _ _ m M q y Hq) as P2.
    eapply peq_t; [apply peq_s; exact P1|]. eapply peq_t; [apply peq_s; exact Ez|]. eapply peq_t; [exact Ez'|exact P2].
  - intros Cu p q x y v w Lp Lq Ux Uy G V W. assert (Hp : here m p) by (destruct Lp as [c [F _]]; apply here_fget; eauto). assert (Hq : here m q) by (destruct Lq as [c [F _]]; apply here_fget; eauto).
    pose proof Hp as Hp'. pose proof Hq as Hq'. apply here_fget in Hp'. apply here_fget in Hq'. destruct Hp' as [c Ec]. destruct Hq' as [c' Ec'].
    assert (X : forall p c, here m p -> fget (cells m) p = Some c -> exists v0 v1 v2 v3, coords m c = [v0; v1; v2; v3] /\ cquad m p = (v0, v1, v2, v3)).
    { intros r b Hr Eb. unfold coords, cell_vertices, cquad. rewrite (data_sides (m_s _ _ _ M) r b Eb). cbn [map]. eexists _, _, _, _. split; reflexivity. }
    destruct (X p c Hp Ec) as [v0 [v1 [v2 [v3 [Ev Q1]]]]]. destruct (X q c' Hq Ec') as [w0 [w1 [w2 [w3 [Ew Q2]]]]].
    apply (Cu p q (plane m (place p x)) v w Lp Lq).
    + exists c, x, v0, v1, v2, v3. split; auto. split; auto. split; auto. split; auto. rewrite <- Q1. apply peq_s. apply (plane_place _ _ m M). auto.
    + exists c', y, w0, w1, w2, w3. split; auto. split; auto. split; auto. split; auto. rewrite <- Q2. eapply peq_t; [apply (plane_glued _ _ m QF M _ _ G)|].
      apply peq_s. apply (plane_place _ _ m M). auto.
Qed.
Print Assumptions C51_grid.

(** ** C52: the constraints are solved *)
(** Every dof is constrained at most once and the supporting dofs are not
    constrained themselves; all are dofs of leaves. *)
Theorem C52_solved pts faces e m s sf order st H : situation pts faces e m s sf order -> st sf = None -> get_hanging order e m s sf st = Ok H ->
  NoDup (map fst H) /\
  forall d sup cs, In (d, (sup, cs)) H ->
    (exists p k, sub_leaf (cells m) sf p /\ dof_at s p k d) /\
    forall a, In a sup -> ~ In a (map fst H) /\ exists p k, sub_leaf (cells m) sf p /\ dof_at s p k a.
Proof.
  intros S ST EH. pose proof S as [_ [T [R [TT [_ PO]]]]]. destruct (situation_facts _ _ _ _ _ _ _ S) as [QF [M [WF [CL [FI _]]]]].
  destruct (set_run order pts faces m e s sf PO QF M T R FI) as [H' [E [A B]]]. unfold get_hanging in EH. rewrite ST, E in EH. cbn [bind] in EH. injection EH as ->.
  split; [eapply hanging_keys; eauto|]. intros d sup cs Hd. pose proof (A _ Hd) as Py.
  destruct (prod_shape order pts faces m e s sf PO QF M T R FI CL TT _ Py) as [_ [[q [k [Lq Eq]]] Z]]. cbn [fst snd] in *. split.
  - exists q, k. split; auto. apply slot_dof. auto.
  - intros a Ha. split.
    + intro Hk. apply in_map_iff in Hk. destruct Hk as [y' [Ey Hy]].
      apply (supports_free order pts faces m e s sf PO QF M T R FI CL TT _ _ Py (A _ Hy)). cbn [fst snd]. rewrite Ey. auto.
    + destruct (Z a Ha) as [p [j [Lp Ep]]]. exists p, j. split; auto. apply slot_dof. auto.
Qed.
Print Assumptions C52_solved.
(** They meet the conditions of C43 and C44: the constraints are acyclic, and the
    problem is well posed if the Dirichlet dofs do not hang. *)
Theorem C52_acyclic pts faces e m s sf order st H : situation pts faces e m s sf order -> st sf = None -> get_hanging order e m s sf st = Ok H ->
  acyclic (as_pairs H).
Proof.
  intros S ST EH. destruct (C52_solved _ _ _ _ _ _ _ _ _ S ST EH) as [_ Z]. exists (fun d => if in_dec Nat.eq_dec d (map fst H) then 1 else 0).
  intros h c Hh Hc. unfold as_pairs in Hh. apply in_map_iff in Hh. destruct Hh as [[d [sup cs]] [<- Hd]]. cbn [fst snd] in *. destruct c as [a w]. apply in_combine_l in Hc.
  destruct (Z d sup cs Hd) as [_ Za]. destruct (Za a Hc) as [Na _]. cbn [fst].
  destruct (in_dec Nat.eq_dec a (map fst H)) as [I|I]; [contradiction|]. destruct (in_dec Nat.eq_dec d (map fst H)) as [J|J]; [lia|]. exfalso. apply J. apply (in_map fst _ _ Hd).
Qed.
Print Assumptions C52_acyclic.
Theorem C52_well_posed pts faces e m s sf order st H cells0 dir : situation pts faces e m s sf order -> st sf = None -> get_hanging order e m s sf st = Ok H ->
  (forall d, cell_dof cells0 d -> exists p k, dof_at s p k d) -> NoDup (map fst dir) ->
  (forall d, In d (map fst dir) -> (exists p k, dof_at s p k d) /\ ~ hangs (face_adj faces) (cells m) sf e s d) ->
  well_posed (dcount s) cells0 (as_pairs H) dir.
Proof.
  intros S ST EH HC ND HD. destruct (C52_solved _ _ _ _ _ _ _ _ _ S ST EH) as [NK Z]. destruct (situation_facts _ _ _ _ _ _ _ S) as [_ [_ [_ [_ [_ B]]]]].
  pose proof (C51_which _ _ _ _ _ _ _ _ _ S ST EH) as WH.
  assert (BD : forall d, (exists p k, dof_at s p k d) -> d < dcount s) by (intros d [p [k Hd]]; apply slot_dof in Hd; eauto).
  assert (KE : map fst (as_pairs H) = map fst H) by (unfold as_pairs; rewrite map_map; reflexivity). unfold well_posed. rewrite KE.
  split; [auto|]. split; [|split; [|split; auto]].
  - intros h Hh. unfold as_pairs in Hh. apply in_map_iff in Hh. destruct Hh as [[d [sup cs]] [<- Hd]]. cbn [fst snd]. destruct (Z d sup cs Hd) as [[p [k [_ Ed]]] Za].
    split; [apply BD; eauto|]. intros [a w] Ha. apply in_combine_l in Ha. destruct (Za a Ha) as [Na [p' [k' [_ Ea]]]]. cbn [fst]. split; auto. apply BD. eauto.
  - intros d Hd. destruct (HD (fst d) (in_map fst _ _ Hd)) as [X Y]. split; auto. rewrite WH. auto.
Qed.
Print Assumptions C52_well_posed.

(** ** The situation of the theorems: right after distribute_dofs() of the mesh *)
Theorem C51_situation pts faces e m s s' order : dof_history2 relabel pts faces e m s -> torn e = false -> distribute2 e m None s = Ok s' ->
  (forall l, Permutation (order l) l) -> situation pts faces e m s' None order.
Proof.
  intros H T E PO. assert (R : submesh_rooted (cells m) None) by (apply rooted_b; reflexivity).
  destruct (C48_distribute pts faces e m s None (relabel_any _ _ _ _ _ H)) as [A _].
  destruct (history_good relabel pts faces e m s relabel_edit H) as [[m0 MH] _].
  destruct (C30_is_balanced pts faces m0 m None MH) as [b [Eb Ib]].
  assert (TT : two_to_one (face_adj faces) (cells m) None).
  { apply Ib. unfold distribute2 in E. rewrite Eb in E. destruct b; [reflexivity|discriminate E]. }
  split; [eapply DH2_distribute; eauto|]. split; auto. split; auto. split; auto. split; auto.
  destruct (A TT) as [s2 [E2 [_ [_ F]]]]. assert (s2 = s') by congruence. subst s2. intros p Hp. apply F. auto.
Qed.
Print Assumptions C51_situation.

(** ** What goes wrong otherwise *)
(** values, computed *)
Fixpoint all_some (l : list (option nat)) : option (list nat) :=
  match l with [] => Some [] | Some d :: r => match all_some r with Some ds => Some (d :: ds) | None => None end | None :: _ => None end.
Lemma all_some_ok l ds : all_some l = Some ds -> l = map Some ds.
Proof.
  revert ds. induction l as [|[d|] l IH]; intros ds E; cbn [all_some] in E; try discriminate E; [injection E as <-; reflexivity|].
  destruct (all_some l) as [r|]; [|discriminate E]. injection E as <-. cbn. f_equal. auto.
Qed.
Definition valb (e : elem) (s : dofs) (u : nat -> Q) (p : path) (x : pt) : option Q :=
  match gd s p with
  | None => None
  | Some l => match all_some l with
    | None => None
    | Some ds => if length ds =? n_dofs D2 e then
        match map_res (fun k => bind (phi2 e k x) (fun f => Ok (u (nth k ds 0%nat) * f)%Q)) (seq 0 (n_dofs D2 e)) with Ok w => Some (sumQ w) | Err _ => None end
      else None
    end
  end.
Lemma map_res_nth {X Y} (f : X -> res Y) l r : map_res f l = Ok r -> length r = length l /\ forall i x y, nth_error l i = Some x -> nth_error r i = Some y -> f x = Ok y.
Proof.
  revert r. induction l as [|x l IH]; intros r E; cbn [map_res] in E; [injection E as <-; split; auto; intros [|i] a b Z; discriminate Z|].
  destruct (f x) as [y|] eqn:Ey; [|discriminate E]. cbn [bind] in E. destruct (map_res f l) as [r'|] eqn:Er; [|discriminate E]. cbn [bind] in E. injection E as <-.
  destruct (IH r' eq_refl) as [L G]. split; [cbn; lia|]. intros [|i] a b A B; cbn in A, B; [congruence|eauto].
Qed.
Lemma valb_ok e s u p x v : valb e s u p x = Some v -> value_at e s u p x v.
Proof.
  unfold valb. destruct (gd s p) as [l|] eqn:El; [|discriminate]. destruct (all_some l) as [ds|] eqn:Ed; [|discriminate]. apply all_some_ok in Ed.
  destruct (Nat.eqb_spec (length ds) (n_dofs D2 e)) as [L|]; [|discriminate]. destruct (map_res _ _) as [w|] eqn:Ew; [|discriminate]. intro Z.
  apply map_res_nth in Ew. destruct Ew as [Lw G]. rewrite seq_length in Lw. exists ds. split; [congruence|]. split; auto. exists w. split; auto. split.
  - intros i y Hy. assert (Li : i < n_dofs D2 e) by (rewrite <- Lw; apply nth_error_Some; congruence). apply (G i i y); auto.
    rewrite (nth_error_nth' _ 0) by (rewrite seq_length; auto). rewrite seq_nth by auto. reflexivity.
  - assert (Ev : sumQ w = v) by congruence. rewrite Ev. reflexivity.
Qed.
Definition unit_at (d : nat) : nat -> Q := fun i => if i =? d then 1%Q else 0%Q.
Definition satb (u : nat -> Q) (H : hdict) : bool :=
  forallb (fun c => Qeq_bool (u (fst c)) (sumQ (map (fun ac => (snd ac * u (fst ac))%Q) (combine (fst (snd c)) (snd (snd c)))))) H.
Lemma satb_ok u H : satb u H = true -> satisfies u H.
Proof. unfold satb. rewrite forallb_forall. intros F d sup cs Hd. apply Qeq_bool_iff. apply (F _ Hd). Qed.
Definition jump (e : elem) (s : dofs) (u : nat -> Q) (p : path) (x : pt) (q : path) (y : pt) : bool :=
  match valb e s u p x, valb e s u q y with Some v, Some w => negb (Qeq_bool v w) | _, _ => false end.
Definition is_leaf (m : mesh2) (sf : option flag) (p : path) : bool := existsb (fun c => match list_eq_dec Nat.eq_dec (fst c) p with left _ => true | right _ => false end) (fget_leaves (cells m) None sf BreadthFirst).
Lemma is_leaf_ok m sf p : is_leaf m sf p = true -> sub_leaf (cells m) sf p.
Proof.
  unfold is_leaf. rewrite existsb_exists. intros [[q c] [Hc E]]. cbn [fst] in E. destruct (list_eq_dec Nat.eq_dec q p) as [->|]; [|discriminate E].
  apply in_fget_leaves in Hc. exists c. tauto.
Qed.
(** the function that is 1 at the dof of slot [k] of [c] and 0 at the others satisfies
    the constraints but has two values at the point [x] of [p], [y] of [q] *)
Definition broken (e : elem) (m : mesh2) (s : dofs) (sf : option flag) (H : hdict) (c : path) (k : nat) (p : path) (x : pt) (q : path) (y : pt) : bool :=
  match slot s c k with
  | Some d => satb (unit_at d) H && jump e s (unit_at d) p x q y && is_leaf m sf p && is_leaf m sf q
  | None => false
  end.
Lemma broken_ok adj e m s sf H c k p x q y : broken e m s sf H c k p x q y = true -> unit_pt x -> unit_pt y -> glued adj (place p x) (place q y) ->
  exists u, satisfies u H /\ ~ continuous adj (cells m) sf e s u.
Proof.
  unfold broken. destruct (slot s c k) as [d|]; [|discriminate]. rewrite !andb_true_iff. intros [[[A1 A2] A3] A4] Ux Uy G. exists (unit_at d). split; [apply satb_ok; auto|].
  intro C. unfold jump in A2. destruct (valb e s (unit_at d) p x) as [v|] eqn:Ev; [|discriminate]. destruct (valb e s (unit_at d) q y) as [w|] eqn:Ew; [|discriminate].
  apply negb_true_iff in A2. apply Qeq_bool_neq in A2. apply A2. apply (C p q x y v w); auto; try apply is_leaf_ok; auto; apply valb_ok; auto.
Qed.
Definition with_hanging (e : elem) (sf : option flag) (P : mesh2 -> dofs -> hdict -> bool) (m : mesh2) (s : dofs) : bool :=
  match get_hanging (fun l => l) e m s sf (fun _ => None) with Ok H => P m s H | Err _ => false end.
Lemma with_hanging_ok e sf P m s : with_hanging e sf P m s = true -> exists H, get_hanging (fun l => l) e m s sf (fun _ => None) = Ok H /\ P m s H = true.
Proof. unfold with_hanging. destruct (get_hanging _ e m s sf _) as [H|]; [eauto|discriminate]. Qed.
Lemma adj21 : face_adj (grid_faces 2 1) 0 1 1 3.
Proof. apply (grid_adj_x 2 1 0 0); lia. Qed.
Lemma cross21 p x q y (t : Q) : hd 0 p = 0 -> hd 0 q = 1 -> (0 <= t <= 1)%Q -> peq (in_root (tl p) x) (1, t)%Q -> peq (in_root (tl q) y) (0, t)%Q ->
  glued (face_adj (grid_faces 2 1)) (place p x) (place q y).
Proof.
  intros E1 E2 Ht X Y. unfold place. rewrite E1, E2. apply (gl_side _ 0 1 1 3 t _ _ adj21 Ht).
  - eapply peq_t; [exact X|]. unfold side_pt, corner, peq. cbn. split; ring.
  - eapply peq_t; [exact Y|]. unfold side_pt, corner, peq. cbn. split; ring.
Qed.
(** Refinement after a first distribution (see C49): the constraints are fulfilled
    but the function is not continuous, although the dofs are distributed again. *)
Definition fresh (e : elem) (sf : option flag) (P : mesh2 -> dofs -> hdict -> bool) (m : mesh2) (s : dofs) : bool :=
  match distribute2 e m sf s with Ok s' => with_hanging e sf P m s' | Err _ => false end.
Lemma fresh_ok e sf P m s : fresh e sf P m s = true -> exists s' H, distribute2 e m sf s = Ok s' /\ get_hanging (fun l => l) e m s' sf (fun _ => None) = Ok H /\ P m s' H = true.
Proof. unfold fresh. destruct (distribute2 e m sf s) as [s'|]; [|discriminate]. intro E. apply with_hanging_ok in E. destruct E as [H [E1 E2]]. eauto. Qed.
Lemma refine_run : check2 Q1 (grid_run2 2 1 2 1 [CSplit None [1]] Q1 [Distribute None; Edit (CSplit None [0])])
  (fresh Q1 None (fun m s H => broken Q1 m s None H [0; 1] 2 [0; 1] (1, 1)%Q [1; 0] (0, 1)%Q)) = true.
Proof. vm_cast_no_check (eq_refl true). Qed.
Theorem C51_refinement_refuted : exists m s0 s H u,
  dof_history2 edit (grid_points 0 2 0 1 2 1) (grid_faces 2 1) Q1 m s0 /\ distribute2 Q1 m None s0 = Ok s /\
  get_hanging (fun l => l) Q1 m s None (fun _ => None) = Ok H /\ satisfies u H /\ ~ continuous (face_adj (grid_faces 2 1)) (cells m) None Q1 s u.
Proof.
  destruct (check2_ok _ _ _ refine_run) as [m [s0 [R E]]]. destruct (grid_run2_history 2 1 2 1 _ Q1 _ m s0 eq_refl eq_refl R) as [Hi _].
  apply fresh_ok in E. destruct E as [s [H [E1 [E2 E3]]]]. destruct (broken_ok (face_adj (grid_faces 2 1)) _ _ _ _ _ _ _ _ _ _ _ E3) as [u [A B]].
  - split; split; cbn; lra.
  - split; split; cbn; lra.
  - apply (cross21 _ _ _ _ (1 # 2)); try reflexivity; [split; lra|split; reflexivity|split; reflexivity].
  - exists m, s0, s, H, u. auto.
Qed.
Print Assumptions C51_refinement_refuted.
(** A submesh that is not 2:1 balanced, in a mesh that is: distribute_dofs accepts it
    (it looks at the whole mesh) and set_hanging_nodes misses hanging nodes. *)
Definition deep : list cmd :=
  [CSplit None [0]; CSplit None [1]; CSplit None [1; 0]; CSplit None [1; 1]; CSplit None [1; 2]; CSplit None [1; 3]; CMark 7 [0]; CMark 7 [1]] ++
  map (fun i => CMark 7 [1; i]) [0; 1; 2; 3] ++ flat_map (fun i => map (fun j => CMark 7 [1; i; j]) [0; 1; 2; 3]) [0; 1; 2; 3].
Lemma deep_run : check2 Q1 (grid_run2 2 1 2 1 deep Q1 [])
  (fun m s => subtrees_rooted (Some 7) (cells m) && fresh Q1 (Some 7) (fun m s H => broken Q1 m s (Some 7) H [1; 0; 0] 3 [0] (1, 1 # 4)%Q [1; 0; 0] (0, 1)%Q) m s) = true.
Proof. vm_cast_no_check (eq_refl true). Qed.
Theorem C51_unbalanced_submesh_refuted : exists m s0 s H u,
  dof_history2 relabel (grid_points 0 2 0 1 2 1) (grid_faces 2 1) Q1 m s0 /\ submesh_rooted (cells m) (Some 7) /\ distribute2 Q1 m (Some 7) s0 = Ok s /\
  get_hanging (fun l => l) Q1 m s (Some 7) (fun _ => None) = Ok H /\ satisfies u H /\ ~ continuous (face_adj (grid_faces 2 1)) (cells m) (Some 7) Q1 s u.
Proof.
  destruct (check2_ok _ _ _ deep_run) as [m [s0 [R E]]]. destruct (grid_run2_history 2 1 2 1 _ Q1 _ m s0 eq_refl eq_refl R) as [_ Hi]. specialize (Hi eq_refl).
  apply andb_true_iff in E. destruct E as [ER E]. apply rooted_b in ER.
  apply fresh_ok in E. destruct E as [s [H [E1 [E2 E3]]]]. destruct (broken_ok (face_adj (grid_faces 2 1)) _ _ _ _ _ _ _ _ _ _ _ E3) as [u [A B]].
  - split; split; cbn; lra.
  - split; split; cbn; lra.
  - apply (cross21 _ _ _ _ (1 # 4)); try reflexivity; [split; lra|split; reflexivity|split; reflexivity].
  - exists m, s0, s, H, u. auto 6.
Qed.
Print Assumptions C51_unbalanced_submesh_refuted.
(** The dictionary is never brought up to date: asked for before and after a
    refinement, get_hanging_nodes returns the constraints of the mesh before. *)
Lemma stale_run : check2 Q1 (grid_run2 2 1 2 1 [] Q1 [Distribute None])
  (fun m0 s0 => with_hanging Q1 None (fun _ _ H => match run_cmd m0 (CSplit None [1]) with
     | Ok m => match distribute2 Q1 m None s0 with Ok s => broken Q1 m s None H [1; 0] 3 [0] (1, 1 # 2)%Q [1; 0] (0, 1)%Q | Err _ => false end
     | Err _ => false end) m0 s0) = true.
Proof. vm_cast_no_check (eq_refl true). Qed.
Theorem C51_stale_refuted : exists m0 s0 H m s u,
  dof_history2 relabel (grid_points 0 2 0 1 2 1) (grid_faces 2 1) Q1 m0 s0 /\ get_hanging (fun l => l) Q1 m0 s0 None (fun _ => None) = Ok H /\
  edit m0 m /\ distribute2 Q1 m None s0 = Ok s /\ get_hanging (fun l => l) Q1 m s None (fun _ => Some H) = Ok H /\
  satisfies u H /\ ~ continuous (face_adj (grid_faces 2 1)) (cells m) None Q1 s u.
Proof.
  destruct (check2_ok _ _ _ stale_run) as [m0 [s0 [R E]]]. destruct (grid_run2_history 2 1 2 1 _ Q1 _ m0 s0 eq_refl eq_refl R) as [_ Hi]. specialize (Hi eq_refl).
  apply with_hanging_ok in E. destruct E as [H [EH E]]. destruct (run_cmd m0 (CSplit None [1])) as [m|] eqn:Em; [|discriminate].
  destruct (distribute2 Q1 m None s0) as [s|] eqn:Es; [|discriminate]. destruct (broken_ok (face_adj (grid_faces 2 1)) _ _ _ _ _ _ _ _ _ _ _ E) as [u [A B]].
  - split; split; cbn; lra.
  - split; split; cbn; lra.
  - apply (cross21 _ _ _ _ (1 # 2)); try reflexivity; [split; lra|split; reflexivity|split; reflexivity].
  - exists m0, s0, H, m, s, u. split; auto. split; auto. split; [cbn [run_cmd] in Em; eapply ed_split; eauto|]. auto.
Qed.
Print Assumptions C51_stale_refuted.
(** Discontinuous elements have no constraints, but get_hanging_nodes (and so
    Assembler.add_hanging_nodes) raises KeyError instead of returning none. *)
Theorem C51_torn_refuted order e m s sf st : torn e = true -> st sf = None -> get_hanging order e m s sf st = Err KeyError.
Proof. intros T E. unfold get_hanging, set_hanging. rewrite E, T. reflexivity. Qed.
Print Assumptions C51_torn_refuted.

(** ** Examples *)
(** two cells, the right one refined, its lower left child refined again, the left
    one refined (2:1): all continuous elements; the constrained dofs and how many
    dofs support each *)
Definition ex_cells : list cmd := [CSplit None [0]; CSplit None [1]; CSplit None [1; 0]].
Definition ex_hanging (e : elem) : option (list (nat * list nat)) :=
  match grid_run2 2 1 2 1 ex_cells e [Distribute None] with
  | Ok (m, s) => match get_hanging (fun l => l) e m s None (fun _ => None) with Ok H => Some (map (fun c => (fst c, fst (snd c))) H) | Err _ => None end
  | Err _ => None
  end.
Example ex_hanging_nodes : map ex_hanging [Q1; Q2] =
  [Some [(17, [9; 1]); (18, [11; 12]); (19, [12; 9])];
   Some [(59, [5; 1; 21]); (48, [5; 1; 21]); (51, [11; 14; 32]); (54, [11; 14; 32]); (55, [14; 5; 33]); (58, [14; 5; 33])]].
Proof. vm_compute. reflexivity. Qed.
Lemma ex_run e : torn e = false -> check2 e (grid_run2 2 1 2 1 ex_cells e []) (fresh e None (fun m s H => negb (length H =? 0))) = true.
Proof. destruct e; intro T; try discriminate T; vm_cast_no_check (eq_refl true). Qed.
(** the theorems apply, and there are hanging nodes *)
Example ex_situation e : torn e = false -> exists m s H,
  situation (grid_points 0 2 0 1 2 1) (grid_faces 2 1) e m s None (fun l => l) /\ get_hanging (fun l => l) e m s None (fun _ => None) = Ok H /\ H <> [].
Proof.
  intro T. destruct (check2_ok _ _ _ (ex_run e T)) as [m [s0 [R E]]]. destruct (grid_run2_history 2 1 2 1 _ e _ m s0 eq_refl eq_refl R) as [_ Hi]. specialize (Hi eq_refl).
  apply fresh_ok in E. destruct E as [s [H [E1 [E2 E3]]]]. exists m, s, H. split; [apply (C51_situation _ _ e m s0 s); auto|]. split; auto. intros ->. discriminate E3.
Qed.

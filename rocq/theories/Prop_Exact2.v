(** * C91: uniqueness and exactness of the solution of a boundary value problem in 2D *)
From Coq Require Import List Arith Bool Lia QArith Qabs Lqa.
From Verif Require Import Tree Forest SpecForest Geom SpecGeom QuadGeomFacts Solver SolverFacts Dcel SpecDcel Quad SpecQuad QuadFacts QuadInv QuadHist QuadCoords QuadStart QuadUniq Prop_QuadMesh
  Fem SpecFem ShapeFacts Dof SpecDof Dof2 SpecDof2 Dof2Hist SpecHang Basis Assemble SpecAssemble Region SpecRegion Problem2 SpecProblem2 Problem2Facts Problem2Main DofVert2 SpecDofVert2 Poly2Facts SpecInterp2 SpecExact2 Exact2Facts
  Hang SpecHang HangGeo DofVert Dirichlet1 DofVert2 Prop_Hang Prop_Balance Prop_Dof2 Prop_Solution2 Prop_Dirichlet2.
From Verif Require ExactFacts Prop_Patch Prop_RegionMark Prop_Problem2 Prop_Shape Nodal1Facts SurfFacts ProblemFacts Prop_Interp2 SpecNodalQ.
Import ListNotations.
Open Scope Q_scope.

Section Definite.
Context {pts : list pt} {faces : list (list nat)} {m0 : mesh2} (M : rmesh) (sf : option flag) (e : elem) (s : dofs).
Context (H : mesh_history pts faces m0 (rm M)) (GF : good_faces pts faces) (FI : forall p, sub_leaf (cells (rm M)) sf p -> filled (n_dofs D2 e) s p).
Context (bases : list deriv) (crule : list pt * list Q) (erule : list Q * list Q) (norm : pt -> Q) (RO : rules_ok crule erule) (PW : positive_rules crule erule) (PN : forall z, 0 <= norm z).
Context (terms : list term2) (ps : list path) (NN : nonneg_terms (rm M) sf bases terms) (PS : forall p, In p ps -> sub_leaf (cells (rm M)) sf p).
Notation m := (rm M).
(** the positive term vanishes at the nodes of the rule *)
Lemma zero_at_nodes der z Z : positive_term m sf bases terms der -> represents2 e m sf s z Z -> bilinear_value2 M crule erule norm bases terms ps Z Z == 0 ->
  forall p, In p ps -> forall x, In x (fst crule) -> Z der p x == 0.
Proof.
  intros [t [i [It [E1 [E2 [Ed [Em [Ef K]]]]]]]] RZ Z0 p Ip x Ix. unfold bilinear_value2 in Z0.
  assert (SH : forall p, In p ps -> exists q, shape_is m p q /\ convex q).
  { intros p' I'. destruct (leaf_shape M sf H GF p' (PS p' I')) as [A [B _]]. eauto. }
  assert (TN : forall p' t', In p' ps -> In t' terms -> 0 <= match f2_test (fst t'), f2_trial (fst t') with
    | Some i, Some j => integral2 M crule erule norm (f2_dmu (fst t')) (f2_flag (fst t')) p' (fun x => snd t' p' x * Z (der_of2 bases i) p' x * Z (der_of2 bases j) p' x) | _, _ => 0 end).
  { intros p' t' I' It'. destruct (f2_test (fst t')) as [i'|] eqn:F1, (f2_trial (fst t')) as [j'|] eqn:F2; try lra. destruct (NN t' i' j' It' F1 F2) as [ED KN]. destruct (SH p' I') as [q [Sq Cq]].
    apply (int2_nonneg M crule erule norm RO PW PN _ _ p' q _ Sq Cq). intros y Uy. rewrite ED. pose proof (KN p' y (PS p' I') Uy) as KN'. set (zz := Z (der_of2 bases j') p' y). assert (0 <= zz * zz) by nra. nra. }
  pose proof (ExactFacts.tot_zero _ ps (fun p' I' => ExactFacts.tot_nonneg _ terms (fun t' It' => TN p' t' I' It')) Z0 p Ip) as T1. cbn beta in T1.
  pose proof (ExactFacts.tot_zero _ terms (fun t' It' => TN p t' Ip It') T1 t It) as T2. cbn beta in T2. rewrite E1, E2, Ed, Em, Ef in T2. destruct (SH p Ip) as [q [Sq Cq]].
  assert (Ux : in_unit x) by (apply (proj1 RO), Ix).
  assert (NNK : forall y, in_unit y -> 0 <= snd t p y * Z der p y * Z der p y).
  { intros y Uy. pose proof (K p y (PS p Ip) Uy) as K'. set (zz := Z der p y). assert (0 <= zz * zz) by nra. nra. }
  pose proof (int2_zero M crule erule norm RO PW p q _ Sq Cq NNK T2 x Ix) as T3. cbn beta in T3.
  pose proof (K p x (PS p Ip) Ux) as Kx. set (zz := Z der p x) in *. destruct (Qeq_dec zz 0) as [G|G]; [exact G|exfalso].
  apply Qmult_integral in T3. destruct T3 as [T3|T3]; [|contradiction]. apply Qmult_integral in T3. destruct T3 as [T3|T3]; [lra|contradiction].
Qed.
Lemma mass_zero z Z : resolves2 crule (S (degree e)) -> positive_term m sf bases terms V0 -> represents2 e m sf s z Z -> bilinear_value2 M crule erule norm bases terms ps Z Z == 0 ->
  forall p x, In p ps -> in_unit x -> Z V0 p x == 0.
Proof.
  intros RS PT RZ Z0 p x Ip Ux. destruct (fe_poly M sf e s H GF FI z Z p RZ (PS p Ip)) as [c [Lc [Rc Ec]]]. rewrite (Ec x Ux).
  apply (RS c Lc Rc). intros y Iy. rewrite <- Ec by (apply (proj1 RO), Iy). exact (zero_at_nodes V0 z Z PT RZ Z0 p Ip y Iy).
Qed.
End Definite.

(** The bilinear form is definite: with a term k v u, k > 0, over all cells, a(z, z) = 0 only for z = 0 *)
Theorem C91_definite pts faces m0 M e s sf bases crule erule norm terms ps z Z :
  mesh_history pts faces m0 (rm M) -> good_faces pts faces -> (forall p, sub_leaf (cells (rm M)) sf p -> filled (n_dofs D2 e) s p) ->
  rules_ok crule erule -> positive_rules crule erule -> (forall y, 0 <= norm y) -> resolves2 crule (S (degree e)) ->
  nonneg_terms (rm M) sf bases terms -> positive_term (rm M) sf bases terms V0 -> (forall p, In p ps <-> sub_leaf (cells (rm M)) sf p) ->
  represents2 e (rm M) sf s z Z -> bilinear_value2 M crule erule norm bases terms ps Z Z == 0 ->
  (forall p k d, sub_leaf (cells (rm M)) sf p -> dof_at s p k d -> z d == 0) /\ forall p x, sub_leaf (cells (rm M)) sf p -> in_unit x -> Z V0 p x == 0.
Proof.
  intros H GF FI RO PW PN RS NN PT PS RZ Z0.
  assert (G : forall p x, sub_leaf (cells (rm M)) sf p -> in_unit x -> Z V0 p x == 0).
  { intros p x Lp Ux. apply (mass_zero M sf e s H GF FI bases crule erule norm RO PW PN terms ps NN (fun p I => proj1 (PS p) I) z Z RS PT RZ Z0 p x); [apply PS; exact Lp|exact Ux]. }
  split; [|exact G]. intros p k d Lp Dk. destruct (Prop_Shape.C31_lagrange_2d e) as [LL LG].
  assert (Hk : (k < n_dofs D2 e)%nat). { destruct (FI p Lp) as [l [El [Ll _]]]. destruct Dk as [l' [El' Nl]]. rewrite El in El'. injection El' as <-. rewrite <- Ll. apply nth_error_Some. congruence. }
  destruct (nth_error (reference_nodes2 e) k) as [y|] eqn:Ey; [|apply nth_error_None in Ey; lia]. rewrite <- (node_coef M sf e s H GF FI z Z p k d y RZ Lp Dk Ey). apply G; [exact Lp|apply (LG k y Ey)].
Qed.
Print Assumptions C91_definite.

(** ** Uniqueness *)
From Verif Require Import Prop_Interp2 SurfFacts Node2Facts VertNb Surf2 Dof2Facts.
Open Scope Q_scope.
Section Cont.
Context {pts : list pt} {faces : list (list nat)} {m0 : mesh2} (M : rmesh) (sf : option flag) (e : elem) (s : dofs).
Context (H : mesh_history pts faces m0 (rm M)) (GF : good_faces pts faces) (FI : forall p, sub_leaf (cells (rm M)) sf p -> filled (n_dofs D2 e) s p).
Notation m := (rm M).
Lemma rep_value v V p x : represents2 e m sf s v V -> sub_leaf (cells m) sf p -> in_unit x -> value_at e s v p x (V V0 p x).
Proof. intros RV Lp Ux. destruct (leaf_shape M sf H GF p Lp) as [S _]. exact (proj1 (RV p _ x Lp S Ux)). Qed.
Lemma value_fun v p x y y' : value_at e s v p x y -> value_at e s v p x y' -> y == y'.
Proof.
  intros [ds [E1 [_ [l [Ll [Hl Sl]]]]]] [ds' [E2 [_ [l' [Ll' [Hl' Sl']]]]]]. rewrite E1 in E2. injection E2 as E2.
  assert (ds = ds') by (clear - E2; revert ds' E2; induction ds as [|a ds IH]; intros [|b ds'] E; try discriminate E; [reflexivity|]; injection E as -> E; rewrite (IH _ E); reflexivity). subst ds'.
  rewrite <- Sl, <- Sl'. assert (l = l'); [|subst; reflexivity]. apply TreeFacts.nth_error_ext. intros i. destruct (Nat.lt_ge_cases i (length l)) as [Hi|Hi]; [|rewrite !(proj2 (nth_error_None _ _)) by lia; reflexivity].
  destruct (nth_error l i) as [a|] eqn:Ea; [|apply nth_error_None in Ea; lia]. destruct (nth_error l' i) as [b|] eqn:Eb; [|apply nth_error_None in Eb; lia].
  pose proof (Hl i a Ea) as Q1. pose proof (Hl' i b Eb) as Q2. rewrite Q1 in Q2. injection Q2 as ->. reflexivity.
Qed.
Lemma cont_rep adj v V : represents2 e m sf s v V ->
  (continuous adj (cells m) sf e s v <-> forall p q x y, sub_leaf (cells m) sf p -> sub_leaf (cells m) sf q -> in_unit x -> in_unit y -> glued adj (place p x) (place q y) -> V V0 p x == V V0 q y).
Proof.
  intros RV. split.
  - intros C p q x y Lp Lq Ux Uy G. apply (C p q x y _ _ Lp Lq Ux Uy G); apply rep_value; assumption.
  - intros C p q x y a b Lp Lq Ux Uy G A B. rewrite (value_fun v p x _ _ A (rep_value v V p x RV Lp Ux)), (value_fun v q y _ _ B (rep_value v V q y RV Lq Uy)). apply (C p q x y); assumption.
Qed.
End Cont.
Lemma der_of_ok bases j : Forall derivative_ok bases -> derivative_ok (der_of2 bases j).
Proof. intros F. unfold der_of2. destruct (Nat.ltb_spec j (length bases)) as [L|L]; [rewrite Forall_forall in F; apply F, nth_In, L|rewrite nth_overflow by lia; exact Logic.I]. Qed.

Lemma unique_of_definite pts faces m0 M e s sf bases crule erule norm terms ps marker u U w W :
  mesh_history pts faces m0 (rm M) -> good_faces pts faces -> (forall p, sub_leaf (cells (rm M)) sf p -> filled (n_dofs D2 e) s p) ->
  Forall derivative_ok bases -> rules_ok crule erule ->
  (forall z Z, represents2 e (rm M) sf s z Z -> continuous (face_adj faces) (cells (rm M)) sf e s z ->
     (forall v p i, sub_leaf (cells (rm M)) sf p -> boundary_vertex M sf marker v p i -> Z V0 p (corner i) == 0) ->
     bilinear_value2 M crule erule norm bases terms ps Z Z == 0 -> forall p k d, sub_leaf (cells (rm M)) sf p -> dof_at s p k d -> z d == 0) ->
  (forall p, In p ps <-> sub_leaf (cells (rm M)) sf p) ->
  represents2 e (rm M) sf s u U -> represents2 e (rm M) sf s w W ->
  continuous (face_adj faces) (cells (rm M)) sf e s u -> continuous (face_adj faces) (cells (rm M)) sf e s w ->
  (forall v p i, sub_leaf (cells (rm M)) sf p -> boundary_vertex M sf marker v p i -> U V0 p (corner i) == W V0 p (corner i)) ->
  (forall z Z, represents2 e (rm M) sf s z Z -> continuous (face_adj faces) (cells (rm M)) sf e s z ->
     (forall v p i, sub_leaf (cells (rm M)) sf p -> boundary_vertex M sf marker v p i -> Z V0 p (corner i) == 0) ->
     bilinear_value2 M crule erule norm bases terms ps Z U == bilinear_value2 M crule erule norm bases terms ps Z W) ->
  (forall p k d, sub_leaf (cells (rm M)) sf p -> dof_at s p k d -> u d == w d) /\
  forall der p x, derivative_ok der -> sub_leaf (cells (rm M)) sf p -> in_unit x -> U der p x == W der p x.
Proof.
  intros H GF FI DB RO DFN PS RU RW CU CW BV EQ. destruct (rep_minus M sf e s H GF FI u U w W RU RW) as [Z [RZ HZ]].
  assert (CZ : continuous (face_adj faces) (cells (rm M)) sf e s (fun d => u d - w d)).
  { apply (cont_rep M sf e s H GF (face_adj faces) _ Z RZ). intros p q x y Lp Lq Ux Uy G.
    rewrite !HZ by (try exact Logic.I; assumption). rewrite (proj1 (cont_rep M sf e s H GF (face_adj faces) u U RU) CU p q x y Lp Lq Ux Uy G), (proj1 (cont_rep M sf e s H GF (face_adj faces) w W RW) CW p q x y Lp Lq Ux Uy G). reflexivity. }
  assert (BZ : forall v p i, sub_leaf (cells (rm M)) sf p -> boundary_vertex M sf marker v p i -> Z V0 p (corner i) == 0).
  { intros v p i Lp B. rewrite (HZ V0 p (corner i) Logic.I Lp (unit_corner' i)). rewrite (BV v p i Lp B). ring. }
  assert (Z0 : bilinear_value2 M crule erule norm bases terms ps Z Z == 0).
  { transitivity (bilinear_value2 M crule erule norm bases terms ps Z (fun der p x => U der p x - W der p x)).
    - apply bil2_ext; [exact RO|]. intros t j It Ej p x Ip Ux. apply HZ; [apply der_of_ok, DB|apply PS, Ip|exact Ux].
    - rewrite (bil2_minus M crule erule norm RO bases terms ps Z U W), (EQ _ Z RZ CZ BZ). ring. }
  assert (D := DFN _ Z RZ CZ BZ Z0).
  assert (UW : forall p k d, sub_leaf (cells (rm M)) sf p -> dof_at s p k d -> u d == w d).
  { intros p k d Lp Dk. pose proof (D p k d Lp Dk) as E. cbn beta in E. lra. }
  split; [exact UW|]. intros der p x Dr Lp Ux. destruct (cell_dofs_list s p _ (FI p Lp)) as [ds [Ed [Eg [Ld _]]]].
  rewrite <- (fe_value M sf e s H GF FI u U p ds der x RU Lp Ed Dr Ux), <- (fe_value M sf e s H GF FI w W p ds der x RW Lp Ed Dr Ux).
  apply sum_ext. intros k Lk. apply Qmult_comp; [|reflexivity]. apply (UW p k _ Lp). exists (map Some ds). split; [exact Eg|]. rewrite nth_error_map, (nth_error_nth' ds 0%nat) by lia. reflexivity.
Qed.
Theorem C91_unique pts faces m0 M e s sf bases crule erule norm terms ps marker u U w W :
  mesh_history pts faces m0 (rm M) -> good_faces pts faces -> (forall p, sub_leaf (cells (rm M)) sf p -> filled (n_dofs D2 e) s p) ->
  Forall derivative_ok bases -> rules_ok crule erule -> positive_rules crule erule -> (forall y, 0 <= norm y) -> resolves2 crule (S (degree e)) ->
  nonneg_terms (rm M) sf bases terms -> positive_term (rm M) sf bases terms V0 -> (forall p, In p ps <-> sub_leaf (cells (rm M)) sf p) ->
  represents2 e (rm M) sf s u U -> represents2 e (rm M) sf s w W ->
  continuous (face_adj faces) (cells (rm M)) sf e s u -> continuous (face_adj faces) (cells (rm M)) sf e s w ->
  (forall v p i, sub_leaf (cells (rm M)) sf p -> boundary_vertex M sf marker v p i -> U V0 p (corner i) == W V0 p (corner i)) ->
  (forall z Z, represents2 e (rm M) sf s z Z -> continuous (face_adj faces) (cells (rm M)) sf e s z ->
     (forall v p i, sub_leaf (cells (rm M)) sf p -> boundary_vertex M sf marker v p i -> Z V0 p (corner i) == 0) ->
     bilinear_value2 M crule erule norm bases terms ps Z U == bilinear_value2 M crule erule norm bases terms ps Z W) ->
  (forall p k d, sub_leaf (cells (rm M)) sf p -> dof_at s p k d -> u d == w d) /\
  forall der p x, derivative_ok der -> sub_leaf (cells (rm M)) sf p -> in_unit x -> U der p x == W der p x.
Proof.
  intros H GF FI DB RO PW PN RS NN PT PS RU RW CU CW BV EQ. apply (unique_of_definite pts faces m0 M e s sf bases crule erule norm terms ps marker u U w W H GF FI DB RO); try assumption.
  intros z Z RZ _ _ Z0. exact (proj1 (C91_definite pts faces m0 M e s sf bases crule erule norm terms ps z Z H GF FI RO PW PN RS NN PT PS RZ Z0)).
Qed.
Print Assumptions C91_unique.

(** ** Exactness *)
Section Poly.
Context {pts : list pt} {faces : list (list nat)} {m0 : mesh2} (m : mesh2) (hl : nat -> flag -> bool) (vl : nat -> flag -> bool) (sf : option flag) (e : elem) (s : dofs) (dv : dverts2).
Notation M := (Region.mkR m (nh (hp m0)) hl vl).
Context (H : mesh_history pts faces m0 m) (GF : good_faces pts faces) (FI : forall p, sub_leaf (cells m) sf p -> filled (n_dofs D2 e) s p).
Context (VH : vertex_history2 edit pts faces e m s dv) (DB : forall p k d, sub_leaf (cells m) sf p -> dof_at s p k d -> has_vertex2 dv d).
Context (c : list (list Q)) (F : deriv -> pt -> Q) (DF : derivatives_of (poly2 c) F).
Context (DEG : total_degree (degree e) c \/ aligned_faces pts faces /\ degree_each (degree e) c).
Lemma shape_aligned0 p q : aligned_faces pts faces -> shape_is m p q -> aligned q.
Proof.
  intros AF S. pose proof (shape_quad p q S) as ->. destruct S as [cl [_ [_ [_ [_ [E _]]]]]].
  assert (Hp : here m p) by (apply here_fget; eauto). rewrite (cell_quad_cquad H p Hp). pose proof (history_minv _ _ _ _ H) as Mi. pose proof (m_s _ _ _ Mi) as I. clear cl E.
  induction p as [|i p IH] using rev_ind; [destruct (path_nonempty [] Hp); auto|]. destruct p as [|a p].
  - change ([] ++ [i]) with [i] in *. destruct (root_quad H i Hp) as [fc [If ->]]. apply (AF fc If).
  - assert (Na : a :: p <> []) by congruence. destruct (s_fam m I _ i Na Hp) as [Li _]. eapply qeq_aligned; [apply qeq_sym, (m_kid _ _ _ Mi); auto|]. apply QuadGeomFacts.aligned_child; [exact Li|].
    apply IH. eapply here_parent; eauto.
Qed.
Lemma tens_leaf p q : shape_is m p q -> tens (S (degree e)) (S (degree e)) (fun y => poly2 c (qmap q (fst y) (snd y))).
Proof.
  intros Sh. destruct DEG as [T|[AF [T1 T2]]].
  - destruct (qmap_bilin q) as [k0 [k1 [k2 [k3 [l0 [l1 [l2 [l3 E]]]]]]]].
    eapply tens_ext; [|apply (comp_total (fun y => fst (qmap q (fst y) (snd y))) (fun y => snd (qmap q (fst y) (snd y))) k0 k1 k2 k3 l0 l1 l2 l3 (fun y => proj1 (E y)) (fun y => proj2 (E y)) c (S (degree e)) T)].
    intros z. cbn beta. destruct (qmap q (fst z) (snd z)). reflexivity.
  - pose proof (shape_aligned0 p q AF Sh) as A. destruct q as [[[q0 q1] q2] q3]. destruct A as [A1 [A2 [A3 [A4 _]]]].
    eapply tens_ext; [|apply (comp_each (fun y => fst (qmap (q0, q1, q2, q3) (fst y) (snd y))) (fun y => snd (qmap (q0, q1, q2, q3) (fst y) (snd y))) (fst q0) (fst q1 - fst q0) (snd q0) (snd q3 - snd q0)
      ltac:(intros z; unfold qmap; cbn [fst snd]; rewrite <- A1, <- A2; ring) ltac:(intros z; unfold qmap; cbn [fst snd]; rewrite <- A3, A4; ring) (S (degree e)) c (S (degree e)) T1 T2)].
    intros z. cbn beta. destruct (qmap (q0, q1, q2, q3) (fst z) (snd z)). reflexivity.
Qed.
(** a function with the values of the polynomial at its dofs is the polynomial *)
Lemma poly_leaf v W p q : (forall p k d z, sub_leaf (cells m) sf p -> dof_at s p k d -> at_point e m s d z -> v d == poly2 c z) -> represents2 e m sf s v W ->
  sub_leaf (cells m) sf p -> shape_is m p q -> forall der x, in_unit x -> derivative_ok der -> W der p x == F der (qmap q (fst x) (snd x)).
Proof.
  intros Hv RW Lp Sh der x Ux D. destruct (tens_leaf p q Sh) as [c' [Lc [Rc Ec]]]. destruct (cell_dofs_list s p _ (FI p Lp)) as [ds [Ed [Eg [Ld _]]]].
  rewrite <- (fe_value M sf e s H GF FI v W p ds der x RW Lp Ed D Ux).
  pose proof (shape_quad p q Sh) as Q. change (Region.rm M) with m. destruct (shape_good H GF p q Sh) as [C A]. rewrite Q in *. clear Q.
  apply (comb_value (cell_is_rectangle m p) (cell_quad m p) e C A (fun k => v (nth k ds 0%nat)) (fun dr y => F dr (qmap (cell_quad m p) (fst y) (snd y)))); [| | |exact D|exact Ux].
  - intros y Uy. rewrite (proj1 DF), Ec. symmetry.
    eapply Qeq_trans; [apply (sums_to_sum _ _ _ (fun k => poly2 c' (nth k (reference_nodes2 e) (0, 0)) * sv (cell_is_rectangle m p) (cell_quad m p) e V0 y k) (Prop_Shape.C31_reproduces_2d e c' y Lc Rc))|].
    + intros k Lk. unfold Fem.at_. destruct (nth_error (reference_nodes2 e) k) as [nd|] eqn:En.
      2:{ exfalso. apply nth_error_None in En. rewrite Node2Facts.nodes2_len in En. unfold Node2Facts.nd2 in En. lia. }
      cbn [bind]. rewrite (nth_error_nth _ _ _ En). destruct (value_total (cell_is_rectangle m p) e k y Uy Lk) as [z [Ez Ev]]. rewrite Ez. cbn [bind]. unfold sv. rewrite shape_on_value, Ev. reflexivity.
    + apply sum_ext. intros k Lk. apply Qmult_comp; [|reflexivity]. rewrite <- Ec. symmetry.
      assert (Dk : dof_at s p k (nth k ds 0%nat)). { exists (map Some ds). split; [exact Eg|]. rewrite nth_error_map, (nth_error_nth' ds 0%nat) by lia. reflexivity. }
      apply (Hv p k _ _ Lp Dk). exists p, k, (qmap (cell_quad m p) (fst (nth k (reference_nodes2 e) (0, 0))) (snd (nth k (reference_nodes2 e) (0, 0)))).
      split; [exact Dk|]. split; [|split; reflexivity]. destruct Sh as [cl [v0 [v1 [v2 [v3 [Efg [Eco EQ]]]]]]].
      exists cl, (nth k (reference_nodes2 e) (0, 0)), v0, v1, v2, v3. split; [exact Efg|]. split; [|split; [exact Eco|rewrite EQ; reflexivity]].
      apply nth_error_nth'. rewrite Node2Facts.nodes2_len. unfold Node2Facts.nd2. exact Lk.
  - intros y Uy. destruct (derivatives_poly c F DF) as [D1 _]. apply (poly_gradient (cell_quad m p) c y _ _ (F V0) Uy (proj1 DF)); [apply (D1 0%nat)|apply (D1 1%nat)]; lia.
  - intros y i Uy Hi. destruct (derivatives_poly c F DF) as [D1 D2]. apply (poly_gradient (cell_quad m p) (pdi i c) y _ _ (F (V1 i)) Uy (fun z => D1 i z Hi)); [apply (D2 i 0%nat)|apply (D2 i 1%nat)]; lia.
Qed.
(** there is such a function; it is continuous *)
Lemma poly_dofs : exists v, forall p k d z, sub_leaf (cells m) sf p -> dof_at s p k d -> at_point e m s d z -> v d == poly2 c z.
Proof.
  exists (fun d => match dof_vertex2 None dv (Some d) with Ok (z :: _) => poly2 c z | _ => 0 end). intros p k d z Lp Dk Az. destruct (DB p k d Lp Dk) as [y Ey].
  pose proof (proj1 (Prop_Dirichlet2.C87_positions pts faces e m s dv VH) [d] [y] Ey) as FA. inversion FA as [|? ? ? ? Ay]; subst.
  assert (Ed : dof_vertex2 None dv (Some d) = Ok [y]).
  { unfold get_dof_vertices2 in Ey. cbn [fold_res] in Ey. destruct (dof_vertex2 None dv (Some d)) as [l|]; [|discriminate Ey]. cbn [bind app] in Ey. exact Ey. }
  rewrite Ed. apply poly2_proper. exact (Prop_Dirichlet2.C87_unique pts faces e m s dv VH d y z Ay Az).
Qed.
Lemma poly_continuous v W : (forall p q der x, sub_leaf (cells m) sf p -> shape_is m p q -> in_unit x -> derivative_ok der -> W der p x == F der (qmap q (fst x) (snd x))) ->
  represents2 e m sf s v W -> continuous (face_adj faces) (cells m) sf e s v.
Proof.
  intros HW RW. apply (cont_rep M sf e s H GF (face_adj faces) v W RW). change (rm M) with m. intros p q x y Lp Lq Ux Uy G.
  pose proof (history_minv _ _ _ _ H) as Mi. assert (QF : quad_faces faces) by (destruct H as [_ [QF _]]; exact QF).
  assert (SH : forall p, sub_leaf (cells m) sf p -> here m p /\ shape_is m p (cell_quad m p)).
  { intros p' L'. destruct (leaf_shape M sf H GF p' L') as [S' _]. split; [|exact S']. destruct L' as [n [En _]]. apply here_fget. eauto. }
  destruct (SH p Lp) as [Hp Sp]. destruct (SH q Lq) as [Hq Sq]. rewrite (HW p _ V0 x Lp Sp Ux Logic.I), (HW q _ V0 y Lq Sq Uy Logic.I), !(proj1 DF).
  apply poly2_proper. rewrite (cell_quad_cquad H p Hp), (cell_quad_cquad H q Hq).
  eapply peq_t; [apply (plane_place pts faces m Mi p x Hp)|]. eapply peq_t; [apply (plane_glued pts faces m QF Mi _ _ G)|]. apply peq_s. apply (plane_place pts faces m Mi q y Hq).
Qed.
End Poly.
(** the coordinates of a corner of a leaf *)
Lemma corner_side m p q i h : shape_is m p q -> is_side m p i h -> (i < 4)%nat -> peq (qmap q (fst (corner i)) (snd (corner i))) (vx (hp m) (hbase (he (hp m) h))).
Proof.
  intros [c [v0 [v1 [v2 [v3 [Ec [Co ->]]]]]]] [c' [Ec' Hi]] Li. rewrite Ec in Ec'. injection Ec' as <-.
  assert (E : nth_error (coords m c) i = Some (vx (hp m) (hbase (he (hp m) h)))).
  { unfold coords, cell_vertices. rewrite map_map. rewrite nth_error_map, Hi. reflexivity. }
  rewrite Co in E. destruct i as [|[|[|[|i]]]]; [| | | |lia]; cbn [nth_error] in E; injection E as <-; unfold peq, qmap, corner; cbn [nth fst snd]; split; ring.
Qed.

Lemma exact_of_definite pts faces m0 m hl vl e s dv sf horder bases crule erule norm terms ps marker df dir solver order fuel keep cls af ar H st u c F :
  let M := Region.mkR m (nh (hp m0)) hl vl in
  mesh_history pts faces m0 m -> good_faces pts faces -> situation pts faces e m s sf horder -> vertex_history2 edit pts faces e m s dv ->
  (forall p k d, sub_leaf (cells m) sf p -> dof_at s p k d -> has_vertex2 dv d) ->
  Forall derivative_ok bases -> rules_ok crule erule -> Forall (term_ok2 e M sf s bases) terms -> (forall p, In p ps <-> sub_leaf (cells m) sf p) -> ps <> [] ->
  In 1%nat (map (fun t => form_dim2 (fst t)) terms) -> In 2%nat (map (fun t => form_dim2 (fst t)) terms) ->
  exact_spsolve solver -> lists_sets order -> SpecAssemble.canonical order -> df <> DSame2 -> proper_data2 df ->
  (forall d v, conditioned2 M e s sf marker true d v -> ~ hangs (face_adj faces) (cells m) sf e s d) ->
  add_dirichlet2 e M s dv marker df true sf [] = Ok dir ->
  st sf = None -> get_hanging horder e m s sf st = Ok H ->
  problem_cells2 e M s bases crule erule norm (map fst terms) ps = Ok cls ->
  assemble order (as_pairs H) dir fuel keep cls (init_forms (map (fun t => form_dim2 (fst t)) terms)) = Ok (af, ar) ->
  solve solver (seq 0 (dcount s)) (as_pairs H) dir ar = Ok u ->
  (forall z Z, represents2 e m sf s z Z -> continuous (face_adj faces) (cells m) sf e s z ->
     (forall v p i, sub_leaf (cells m) sf p -> boundary_vertex M sf marker v p i -> Z V0 p (corner i) == 0) ->
     bilinear_value2 M crule erule norm bases terms ps Z Z == 0 -> forall p k d, sub_leaf (cells m) sf p -> dof_at s p k d -> z d == 0) ->
  derivatives_of (poly2 c) F -> total_degree (degree e) c \/ aligned_faces pts faces /\ degree_each (degree e) c ->
  (forall v p i, sub_leaf (cells m) sf p -> boundary_vertex M sf marker v p i -> prescribed2 df (vx (hp m) v) (poly2 c (vx (hp m) v))) ->
  (forall z Z P, represents2 e m sf s z Z -> continuous (face_adj faces) (cells m) sf e s z ->
     (forall v p i, sub_leaf (cells m) sf p -> boundary_vertex M sf marker v p i -> Z V0 p (corner i) == 0) ->
     (forall p q x der, sub_leaf (cells m) sf p -> shape_is m p q -> in_unit x -> P der p x == F der (qmap q (fst x) (snd x))) ->
     bilinear_value2 M crule erule norm bases terms ps Z P == linear_value2 M crule erule norm bases terms ps Z) ->
  (forall p k d z, sub_leaf (cells m) sf p -> dof_at s p k d -> at_point e m s d z -> nth d u 0 == poly2 c z) /\
  forall U, represents2 e m sf s (fun d => nth d u 0) U ->
    forall p q x der, sub_leaf (cells m) sf p -> shape_is m p q -> in_unit x -> derivative_ok der -> U der p x == F der (qmap q (fst x) (snd x)).
Proof.
  intros M MH GF SI VH DB BO RO TK PS NP I1 I2 SV LS CO NS PD NH EA ES EH EP EM EU DFN DF DEG BV CS.
  assert (FI : forall p, sub_leaf (cells m) sf p -> filled (n_dofs D2 e) s p).
  { pose proof SI as [_ [_ [_ [_ [FS _]]]]]. intros p [n [En [Fn _]]]. apply FS. exists n. auto. }
  assert (SH : forall p, sub_leaf (cells m) sf p -> shape_is m p (cell_quad m p)) by (intros p Lp; exact (proj1 (leaf_shape M sf MH GF p Lp))).
  destruct (C88_solution pts faces m0 m hl vl e s dv sf horder bases crule erule norm terms ps marker df dir solver order fuel keep cls af ar H st u
    MH GF SI VH DB BO RO TK (fun p I => proj1 (PS p) I) NP I1 I2 SV LS CO NS PD NH EA ES EH EP EM EU) as [_ [CU WU]].
  destruct (poly_dofs (pts:=pts) (faces:=faces) m sf e s dv VH DB c) as [v Hv].
  destruct (proj1 (Prop_Problem2.C86_functions pts faces m0 m sf e s v MH GF FI)) as [W RW].
  assert (HW := fun p q der x Lp Sh Ux D => poly_leaf (pts:=pts) (faces:=faces) (m0:=m0) m hl vl sf e s MH GF FI c F DF DEG v W p q Hv RW Lp Sh der x Ux D).
  assert (CW := poly_continuous (pts:=pts) (faces:=faces) (m0:=m0) m hl vl sf e s MH GF c F DF v W HW RW).
  destruct (proj1 (Prop_Problem2.C86_functions pts faces m0 m sf e s (fun d => nth d u 0) MH GF FI)) as [U RU]. destruct (WU U RU) as [UB UQ].
  destruct (unique_of_definite pts faces m0 M e s sf bases crule erule norm terms ps marker (fun d => nth d u 0) U v W MH GF FI BO RO DFN PS RU RW CU CW) as [D _].
  - intros w p i Lp B. pose proof (UB w p i B) as X. pose proof (BV w p i Lp B) as Y. destruct B as [_ [_ [h [Si Ew]]]].
    assert (E : W V0 p (corner i) == poly2 c (vx (hp m) w)).
    { rewrite (HW p _ V0 (corner i) Lp (SH p Lp) (unit_corner' i) Logic.I), (proj1 DF). apply poly2_proper. rewrite Ew. apply (corner_side m p _ i h (SH p Lp) Si).
      pose proof (history_minv _ _ _ _ MH) as Mi. apply (is_side_iff _ _ _ _ (m_s _ _ _ Mi)) in Si. tauto. }
    rewrite E. destruct df as [k|g|]; cbn in X, Y; [rewrite X, Y; reflexivity|rewrite X, Y; reflexivity|contradiction].
  - intros z Z RZ CZ BZ.
    pose (P := fun (der : deriv) (p : path) (x : pt) => F der (qmap (cell_quad m p) (fst x) (snd x))).
    eapply Qeq_trans; [apply (UQ z Z RZ CZ)|].
    { intros w p i B. assert (Lp : sub_leaf (cells m) sf p).
        { destruct B as [Fo [L _]]. pose proof SI as [_ [_ [Rt _]]].
          destruct (Prop_RegionMark.C68_get pts faces m0 M sf marker EVertex true MH eq_refl Rt) as [out [_ [_ [J1 J2]]]]. apply (J2 (Vtx w) p). apply J1. split; [reflexivity|]. split; [exact Fo|exact L]. }
        apply (BZ w p i Lp B). }
    assert (PP : forall p q x der, sub_leaf (cells m) sf p -> shape_is m p q -> in_unit x -> P der p x == F der (qmap q (fst x) (snd x))) by (intros p q x der Lp Sq Ux; unfold P; rewrite (shape_quad p q Sq); reflexivity).
    eapply Qeq_trans; [apply Qeq_sym, (CS z Z P RZ CZ BZ PP)|].
    symmetry. apply bil2_ext; [exact RO|]. intros t j It Ej p x Ip Ux. apply PS in Ip. unfold P. apply (HW p _ (der_of2 bases j) x Ip (SH p Ip) Ux (der_of_ok bases j BO)).
  - assert (DU : forall p k d z, sub_leaf (cells m) sf p -> dof_at s p k d -> at_point e m s d z -> nth d u 0 == poly2 c z).
    { intros p k d z Lp Dk Az. rewrite <- (Hv p k d z Lp Dk Az). exact (D p k d Lp Dk). }
    split; [exact DU|]. intros U' RU' p q x der Lp Sq Ux Dr.
    exact (poly_leaf (pts:=pts) (faces:=faces) (m0:=m0) m hl vl sf e s MH GF FI c F DF DEG _ U' p q DU RU' Lp Sq der x Ux Dr).
Qed.
(** The computed solution of a problem whose discrete weak form a polynomial satisfies is that
    polynomial, at every dof and, with its derivatives, at every point *)
Theorem C91_exact pts faces m0 m hl vl e s dv sf horder bases crule erule norm terms ps marker df dir solver order fuel keep cls af ar H st u c F :
  let M := Region.mkR m (nh (hp m0)) hl vl in
  mesh_history pts faces m0 m -> good_faces pts faces -> situation pts faces e m s sf horder -> vertex_history2 edit pts faces e m s dv ->
  (forall p k d, sub_leaf (cells m) sf p -> dof_at s p k d -> has_vertex2 dv d) ->
  Forall derivative_ok bases -> rules_ok crule erule -> Forall (term_ok2 e M sf s bases) terms -> (forall p, In p ps <-> sub_leaf (cells m) sf p) -> ps <> [] ->
  In 1%nat (map (fun t => form_dim2 (fst t)) terms) -> In 2%nat (map (fun t => form_dim2 (fst t)) terms) ->
  exact_spsolve solver -> lists_sets order -> SpecAssemble.canonical order -> df <> DSame2 -> proper_data2 df ->
  (forall d v, conditioned2 M e s sf marker true d v -> ~ hangs (face_adj faces) (cells m) sf e s d) ->
  add_dirichlet2 e M s dv marker df true sf [] = Ok dir ->
  st sf = None -> get_hanging horder e m s sf st = Ok H ->
  problem_cells2 e M s bases crule erule norm (map fst terms) ps = Ok cls ->
  assemble order (as_pairs H) dir fuel keep cls (init_forms (map (fun t => form_dim2 (fst t)) terms)) = Ok (af, ar) ->
  solve solver (seq 0 (dcount s)) (as_pairs H) dir ar = Ok u ->
  positive_rules crule erule -> (forall y, 0 <= norm y) -> resolves2 crule (S (degree e)) ->
  nonneg_terms m sf bases terms -> positive_term m sf bases terms V0 ->
  derivatives_of (poly2 c) F -> total_degree (degree e) c \/ aligned_faces pts faces /\ degree_each (degree e) c ->
  (forall v p i, sub_leaf (cells m) sf p -> boundary_vertex M sf marker v p i -> prescribed2 df (vx (hp m) v) (poly2 c (vx (hp m) v))) ->
  (forall z Z P, represents2 e m sf s z Z -> continuous (face_adj faces) (cells m) sf e s z ->
     (forall v p i, sub_leaf (cells m) sf p -> boundary_vertex M sf marker v p i -> Z V0 p (corner i) == 0) ->
     (forall p q x der, sub_leaf (cells m) sf p -> shape_is m p q -> in_unit x -> P der p x == F der (qmap q (fst x) (snd x))) ->
     bilinear_value2 M crule erule norm bases terms ps Z P == linear_value2 M crule erule norm bases terms ps Z) ->
  (forall p k d z, sub_leaf (cells m) sf p -> dof_at s p k d -> at_point e m s d z -> nth d u 0 == poly2 c z) /\
  forall U, represents2 e m sf s (fun d => nth d u 0) U ->
    forall p q x der, sub_leaf (cells m) sf p -> shape_is m p q -> in_unit x -> derivative_ok der -> U der p x == F der (qmap q (fst x) (snd x)).
Proof.
  intros M MH GF SI VH DB BO RO TK PS NP I1 I2 SV LS CO NS PD NH EA ES EH EP EM EU PW PN RS NN PT DF DEG BV CS.
  refine (exact_of_definite pts faces m0 m hl vl e s dv sf horder bases crule erule norm terms ps marker df dir solver order fuel keep cls af ar H st u c F
    MH GF SI VH DB BO RO TK PS NP I1 I2 SV LS CO NS PD NH EA ES EH EP EM EU _ DF DEG BV CS).
  intros z Z RZ _ _ Z0. assert (FI : forall p, sub_leaf (cells m) sf p -> filled (n_dofs D2 e) s p).
  { pose proof SI as [_ [_ [_ [_ [FS _]]]]]. intros p [n [En [Fn _]]]. apply FS. exists n. auto. }
  exact (proj1 (C91_definite pts faces m0 M e s sf bases crule erule norm terms ps z Z MH GF FI RO PW PN RS NN PT PS RZ Z0)).
Qed.
Print Assumptions C91_exact.

(** ** Right hand sides for which a polynomial satisfies the weak form *)
Lemma total_app {X} (f : X -> Q) l l' : total f (l ++ l') == total f l + total f l'.
Proof. induction l as [|x l IH]; [change ([] ++ l') with l'; change (total f []) with 0; ring|]. change (total f ((x :: l) ++ l')) with (f x + total f (l ++ l')). change (total f (x :: l)) with (f x + total f l). rewrite IH. ring. Qed.
Theorem C91_weak_form pts faces m0 M sf bases crule erule norm bil lin ps Z P F :
  mesh_history pts faces m0 (rm M) -> rules_ok crule erule -> (forall p, In p ps -> sub_leaf (cells (rm M)) sf p) ->
  Forall2 (right_hand_side (rm M) sf bases F) bil lin ->
  (forall p q x der, sub_leaf (cells (rm M)) sf p -> shape_is (rm M) p q -> in_unit x -> P der p x == F der (qmap q (fst x) (snd x))) ->
  bilinear_value2 M crule erule norm bases (bil ++ lin) ps Z P == linear_value2 M crule erule norm bases (bil ++ lin) ps Z.
Proof.
  intros H RO PS F2 HP. apply ExactFacts.tot_ext. intros p Ip. pose proof (PS p Ip) as Lp.
  assert (Sh : exists q, shape_is (rm M) p q). { apply (shape_total H p). destruct Lp as [n [En _]]. exists n. exact En. }
  destruct Sh as [q Sh]. eapply Qeq_trans; [apply total_app|]. eapply Qeq_trans; [|apply Qeq_sym, total_app].
  assert (A : total (fun t : term2 => match f2_test (fst t), f2_trial (fst t) with
      | Some i, Some j => integral2 M crule erule norm (f2_dmu (fst t)) (f2_flag (fst t)) p (fun x => snd t p x * Z (der_of2 bases i) p x * P (der_of2 bases j) p x) | _, _ => 0 end) lin == 0 /\
    total (fun t : term2 => match f2_test (fst t), f2_trial (fst t) with
      | Some i, None => integral2 M crule erule norm (f2_dmu (fst t)) (f2_flag (fst t)) p (fun x => snd t p x * Z (der_of2 bases i) p x) | _, _ => 0 end) bil == 0 /\
    total (fun t : term2 => match f2_test (fst t), f2_trial (fst t) with
      | Some i, Some j => integral2 M crule erule norm (f2_dmu (fst t)) (f2_flag (fst t)) p (fun x => snd t p x * Z (der_of2 bases i) p x * P (der_of2 bases j) p x) | _, _ => 0 end) bil ==
    total (fun t : term2 => match f2_test (fst t), f2_trial (fst t) with
      | Some i, None => integral2 M crule erule norm (f2_dmu (fst t)) (f2_flag (fst t)) p (fun x => snd t p x * Z (der_of2 bases i) p x) | _, _ => 0 end) lin).
  { clear Ip PS. induction F2 as [|t r bil lin RHS F2 IH]; [repeat split; reflexivity|]. destruct IH as [I1 [I2 I3]].
    destruct RHS as [i [j [E1 [E2 [E3 [E4 [E5 [E6 E7]]]]]]]]. unfold total in I1, I2, I3 |- *. cbn [map fold_right]. rewrite E1, E2, E3, E4, E5, E6.
    split; [rewrite I1; ring|]. split; [rewrite I2; ring|]. apply Qplus_comp; [|exact I3].
    apply int2_ext; [exact RO|]. intros x Ux. rewrite (HP p q x (der_of2 bases j) Lp Sh Ux), (E7 p q x Lp Sh Ux). ring. }
  destruct A as [A1 [A2 A3]]. rewrite A1, A2, A3. ring.
Qed.
Print Assumptions C91_weak_form.

(** ** Rules that resolve the polynomials: the products of rules with enough points *)
Theorem C91_resolves crule m xs ys : (m <= length xs)%nat -> (m <= length ys)%nat ->
  (forall i j, (i < j < length xs)%nat -> ~ nth i xs 0 == nth j xs 0) -> (forall i j, (i < j < length ys)%nat -> ~ nth i ys 0 == nth j ys 0) ->
  (forall x y, In x xs -> In y ys -> In (x, y) (fst crule)) -> resolves2 crule m.
Proof.
  intros Lx Ly Dx Dy HI c Lc Rc Z [zx zy].
  assert (A : forall x, In x xs -> forall y, poly2 c (x, y) == 0).
  { intros x Ix. assert (G : exists g, (length g <= m)%nat /\ forall y, poly2 c (x, y) == poly g y).
    { clear - Rc. unfold poly2. cbn [fst snd]. induction c as [|r c IH]; [exists []; split; [cbn; lia|intros y; reflexivity]|]. inversion Rc as [|? ? Lr Rc']; subst. destruct (IH Rc') as [g [Lg Eg]].
      exists (padd r (pscale x g)). split; [apply padd_len; [exact Lr|rewrite pscale_len; exact Lg]|]. intros y. cbn [map poly]. rewrite Eg, padd_ok, pscale_ok. ring. }
    destruct G as [g [Lg Eg]]. intros y. rewrite Eg. apply (Prop_Patch.C84_resolves (ys, ys) m Ly Dy g Lg). intros y' Iy. rewrite <- Eg. apply Z. apply HI; assumption. }
  unfold poly2. cbn [fst snd]. apply (Prop_Patch.C84_resolves (xs, xs) m Lx Dx); [rewrite map_length; exact Lc|]. intros x Ix. exact (A x Ix zy).
Qed.
Print Assumptions C91_resolves.

(** ** A case: u - (u_xx + u_yy) = x in the weak form, u = x on the boundary of a 2 x 1 grid with a
    refined cell and a hanging node; all rules have positive weights *)
From Verif Require Import Kernel SpecKernel Grid2 GridFacts Prop_Problem2.
From Verif Require ForestFacts Prop_Assemble ElimSolver Prop_Grid.
Open Scope Q_scope.
Definition xe_crule : list pt * list Q := ([(0, 0); (1%Q, 0); (0, 1%Q); (1%Q, 1%Q)], [1 # 4; 1 # 4; 1 # 4; 1 # 4]).
Definition xe_zero : Kernel.kernel pt deriv := Kernel.mkKernel [constant_map2 [0]] [None] (fun v => nth 0 v 0) 1%nat.
Definition xe_bil : list (form2 * (path -> pt -> Q)) :=
  [(mkForm2 rx_one (Some 0%nat) (Some 0%nat) Dx2 None, fun _ _ => 1); (mkForm2 rx_one (Some 1%nat) (Some 1%nat) Dx2 None, fun _ _ => 1);
   (mkForm2 rx_one (Some 2%nat) (Some 2%nat) Dx2 None, fun _ _ => 1)].
Definition xe_lin (m : mesh2) : list (form2 * (path -> pt -> Q)) :=
  [(mkForm2 rx_one (Some 0%nat) None Dx2 None, fun _ _ => 1); (mkForm2 xe_zero (Some 1%nat) None Dx2 None, fun _ _ => 0);
   (mkForm2 rx_x (Some 2%nat) None Dx2 None, fun p x => fst (qmap (cell_quad m p) (fst x) (snd x)))].
Definition xe_terms (m : mesh2) := xe_bil ++ xe_lin m.
Definition xe_c : list (list Q) := [[]; [1%Q]].
Lemma xe_ok e M sf s : Forall (term_ok2 e M sf s rx_bases) (xe_terms (rm M)).
Proof.
  assert (F1 : forall l l', Forall2 Qeq l l' -> nth 0 l 0 == nth 0 l' 0) by (intros l l' F; destruct F; [reflexivity|assumption]).
  assert (K0 : kernel_is2 e M sf s rx_bases xe_zero (fun _ _ => 0)).
  { apply (Prop_Problem2.C86_kernel e M sf s rx_bases [constant_map2 [0]] [fun _ _ => 0] (fun v => nth 0 v 0) xe_zero); [constructor; [apply Prop_Problem2.C86_maps|constructor]|reflexivity|exact F1]. }
  pose proof (rx_ok e M sf s) as R. unfold rx_terms in R. inversion R as [|? ? A R1]; subst. inversion R1 as [|? ? B R2]; subst. inversion R2 as [|? ? C R3]; subst. inversion R3 as [|? ? D R4]; subst.
  unfold xe_terms, xe_bil, xe_lin. cbn [app]. constructor; [exact A|]. constructor; [exact B|]. constructor; [exact C|]. constructor.
  - destruct A as [A1 [A2 A3]]. split; [exact A1|]. split; [exact A2|]. intros i E. discriminate E.
  - constructor; [|constructor; [exact D|constructor]]. split; [exact K0|]. split; intros i E; cbn in E; [injection E as <-; cbn; lia|discriminate E].
Qed.
Lemma xe_rhs m sf F : derivatives_of (poly2 xe_c) F -> Forall2 (right_hand_side m sf rx_bases F) xe_bil (xe_lin m).
Proof.
  intros DF. destruct (derivatives_poly xe_c F DF) as [D1 _].
  constructor; [|constructor; [|constructor; [|constructor]]]; [exists 0%nat, 0%nat|exists 1%nat, 1%nat|exists 2%nat, 2%nat]; do 6 (split; [reflexivity|]); intros p q x Lp Sh Ux; cbn [fst snd].
  - change (der_of2 rx_bases 0) with (V1 0). rewrite (D1 0%nat) by lia. cbn. ring.
  - change (der_of2 rx_bases 1) with (V1 1). rewrite (D1 1%nat) by lia. cbn. ring.
  - change (der_of2 rx_bases 2) with V0. rewrite (proj1 DF). pose proof (shape_quad p q Sh) as Eq. rewrite Eq. cbn. ring.
Qed.
Definition xe_check (r : res (mesh2 * (mesh2 * (dofs * dverts2)))) : bool :=
  match r with Err _ => false | Ok (m0, (m, (s, v))) =>
  match add_dirichlet2 Q1 (rx_M m0 m) s v None (DMap2 fst) true None [] with Err _ => false | Ok dir =>
  match get_hanging (fun l => l) Q1 m s None (fun _ => None) with Err _ => false | Ok H =>
  let ps := map fst (fget_leaves (cells m) None None BreadthFirst) in
  match problem_cells2 Q1 (rx_M m0 m) s rx_bases xe_crule Prop_Problem2.qx_erule Prop_Problem2.qx_norm (map fst (xe_terms m)) ps with Err _ => false | Ok cls =>
  match assemble Prop_Assemble.sorted_set (as_pairs H) dir 400 true cls (init_forms (map (fun t => form_dim2 (fst t)) (xe_terms m))) with Err _ => false | Ok (af, ar) =>
  match solve ElimSolver.gauss_solver (seq 0 (dcount s)) (as_pairs H) dir ar with Err _ => false | Ok u =>
    (length ps =? 5)%nat && (length H =? 1)%nat && (length dir =? 9)%nat && (length u =? 11)%nat
  end end end end end end.
Lemma xe_run : xe_check (vgrid 2 1 2 1 Q1 case_cs) = true.
Proof. vm_cast_no_check (eq_refl true). Qed.
Example C91_case : exists m0 m s v dir H cls af ar u ps, let M := rx_M m0 m in
  mesh_history (grid_points 0 2 0 1 2 1) (grid_faces 2 1) m0 m /\ situation (grid_points 0 2 0 1 2 1) (grid_faces 2 1) Q1 m s None (fun l => l) /\
  length ps = 5%nat /\ length dir = 9%nat /\ length H = 1%nat /\ length u = 11%nat /\
  get_hanging (fun l => l) Q1 m s None (fun _ => None) = Ok H /\ add_dirichlet2 Q1 M s v None (DMap2 fst) true None [] = Ok dir /\
  problem_cells2 Q1 M s rx_bases xe_crule Prop_Problem2.qx_erule Prop_Problem2.qx_norm (map fst (xe_terms m)) ps = Ok cls /\
  assemble Prop_Assemble.sorted_set (as_pairs H) dir 400 true cls (init_forms (map (fun t => form_dim2 (fst t)) (xe_terms m))) = Ok (af, ar) /\
  solve ElimSolver.gauss_solver (seq 0 (dcount s)) (as_pairs H) dir ar = Ok u /\
  forall p k d z, sub_leaf (cells m) None p -> dof_at s p k d -> at_point Q1 m s d z -> nth d u 0 == fst z.
Proof.
  pose proof xe_run as E. destruct (vgrid 2 1 2 1 Q1 case_cs) as [[m0 [m [s v]]]|] eqn:EV; [|discriminate E]. unfold xe_check in E.
  destruct (vgrid_history 2 1 2 1 Q1 case_cs m0 m s v (grid_ok 2 1 2 1) (Prop_QuadMesh.grid_quads 2 1) EV) as [[m1 [MH ->]] VH].
  destruct (vgrid_filled 2 1 2 1 Q1 (Some (CSplit None [1%nat])) m0 m s v EV ltac:(discriminate)) as [F1 F2].
  assert (SI := vgrid_situation 2 1 2 1 Q1 (Some (CSplit None [1%nat])) m0 m s v eq_refl EV ltac:(discriminate)).
  destruct (add_dirichlet2 Q1 (rx_M m0 m) s v None (DMap2 fst) true None []) as [dir|] eqn:ED; [|discriminate E].
  destruct (get_hanging (fun l => l) Q1 m s None (fun _ => None)) as [H|] eqn:EH; [|discriminate E].
  set (ps := map fst (fget_leaves (cells m) None None BreadthFirst)) in E.
  destruct (problem_cells2 _ _ _ _ _ _ _ _ _) as [cls|] eqn:EP; [|discriminate E].
  destruct (assemble _ _ _ _ _ _ _) as [[af ar]|] eqn:EM; [|discriminate E].
  destruct (solve _ _ _ _ _) as [u|] eqn:EU; [|discriminate E].
  apply andb_true_iff in E. destruct E as [E E4]. apply andb_true_iff in E. destruct E as [E E3]. apply andb_true_iff in E. destruct E as [E1 E2].
  apply Nat.eqb_eq in E1, E2, E3, E4.
  assert (GF := Prop_Problem2.grid_good 2 1 0 2 0 1 eq_refl eq_refl).
  assert (PS : forall p, In p ps <-> sub_leaf (cells m) None p).
  { intros p. unfold ps. rewrite in_map_iff. split.
    - intros [[p' n] [Ep Ip]]. cbn [fst] in Ep. subst p'. apply ForestFacts.in_fget_leaves in Ip. exists n. tauto.
    - intros [n [Fn Ln]]. exists (p, n). split; auto. apply ForestFacts.in_fget_leaves. simpl. tauto. }
  assert (NP : ps <> []) by (intros X; rewrite X in E1; discriminate E1).
  assert (RO : rules_ok xe_crule Prop_Problem2.qx_erule).
  { split; (split; [reflexivity|]); intros x I; cbn in I; [destruct I as [<-|[<-|[<-|[<-|[]]]]]; split; cbn; lra|destruct I as [<-|[<-|[<-|[]]]]; split; lra]. }
  assert (PW : positive_rules xe_crule Prop_Problem2.qx_erule).
  { split; intros x I; cbn in I; [destruct I as [<-|[<-|[<-|[<-|[]]]]]; lra|destruct I as [<-|[<-|[<-|[]]]]; lra]. }
  assert (PN : forall y, 0 <= Prop_Problem2.qx_norm y).
  { intros y. unfold Prop_Problem2.qx_norm. pose proof (Qabs_nonneg (fst y)). pose proof (Qabs_nonneg (snd y)). lra. }
  assert (RS : resolves2 xe_crule (S (degree Q1))).
  { apply (C91_resolves xe_crule 2 [0; 1%Q] [0; 1%Q]); [cbn; lia|cbn; lia| | |].
    - intros i j Hij. cbn in Hij. assert (i = 0 /\ j = 1)%nat as [-> ->] by lia. cbn. lra.
    - intros i j Hij. cbn in Hij. assert (i = 0 /\ j = 1)%nat as [-> ->] by lia. cbn. lra.
    - intros x y [<-|[<-|[]]] [<-|[<-|[]]]; cbn; tauto. }
  assert (DB : Forall derivative_ok rx_bases) by (repeat (constructor; [cbn; auto; lia|]); constructor).
  assert (NN : nonneg_terms m None rx_bases (xe_terms m)).
  { intros t i j It Ei Ej. cbn in It. destruct It as [<-|[<-|[<-|[<-|[<-|[<-|[]]]]]]]; cbn in Ei, Ej; try discriminate Ej; injection Ei as <-; injection Ej as <-; (split; [reflexivity|]); intros; cbn; lra. }
  assert (PT : positive_term m None rx_bases (xe_terms m) V0).
  { exists (mkForm2 rx_one (Some 2%nat) (Some 2%nat) Dx2 None, fun _ _ => 1), 2%nat. split; [cbn; tauto|]. do 5 (split; [reflexivity|]). intros; cbn; lra. }
  destruct (C90_derivatives xe_c) as [F DF].
  assert (TD : total_degree (degree Q1) xe_c) by (intros i r Er; destruct i as [|[|i]]; [left; injection Er as <-; reflexivity|right; injection Er as <-; cbn; lia|destruct i; discriminate Er]).
  assert (VR : vertex_history2 edit (grid_points 0 2 0 1 2 1) (grid_faces 2 1) Q1 m s v) by exact VH.
  assert (PX : forall z, poly2 xe_c z == fst z) by (intros z; cbn; ring).
  destruct (C91_exact _ _ m0 m (fun _ _ => false) (fun _ _ => false) Q1 s v None (fun l => l) rx_bases xe_crule Prop_Problem2.qx_erule Prop_Problem2.qx_norm (xe_terms m) ps None (DMap2 fst) dir ElimSolver.gauss_solver Prop_Assemble.sorted_set 400%nat true cls af ar H (fun _ => None) u xe_c F
    MH GF SI VR F2 DB RO (xe_ok Q1 (rx_M m0 m) None s) PS NP ltac:(cbn; tauto) ltac:(cbn; tauto) ElimSolver.gauss_solver_exact Prop_Assemble.sorted_lists Prop_Assemble.sorted_canonical ltac:(discriminate) (fun x y E => proj1 E)
    (fun d v0 C => C88_grid 2 1 0 2 0 1 m0 m (fun _ _ => false) (fun _ _ => false) Q1 s None (fun l => l) None d v0 (Nat.lt_0_succ _) (Nat.lt_0_succ _) eq_refl eq_refl MH SI C)
    ED eq_refl EH EP EM EU PW PN RS NN PT DF (or_introl TD)) as [HU _].
  - intros w p i _ _. cbn. apply PX.
  - intros z Z P RZ CZ BZ HP. exact (C91_weak_form _ _ m0 (rx_M m0 m) None rx_bases xe_crule Prop_Problem2.qx_erule Prop_Problem2.qx_norm xe_bil (xe_lin m) ps Z P F MH RO (fun p I => proj1 (PS p) I) (xe_rhs m None F DF) HP).
  - exists m0, m, s, v, dir, H, cls, af, ar, u, ps. cbv zeta. do 11 (split; [assumption|]). intros p k d z Lp Dk Az. rewrite (HU p k d z Lp Dk Az). apply PX.
Qed.

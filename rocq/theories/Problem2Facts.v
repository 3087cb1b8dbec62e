(** * Finite element functions on quadrilateral cells and their derivatives (facts for C86) *)
From Coq Require Import List Arith Bool Lia QArith Qabs Lqa.
From Verif Require Import Tree Forest SpecForest Geom SpecGeom QuadGeomFacts Dcel SpecDcel Quad SpecQuad TreeFacts ForestFacts QuadFacts QuadSplit QuadInv QuadNb DcelFacts QuadInit QuadUniq QuadStart QuadCoords QuadHist Prop_QuadMesh
  Fem SpecFem ShapeFacts Calc Prop_Deriv Dof SpecDof DofFacts Dof2 SpecDof2 SpecHang Basis Solver SolverFacts Nodal NodalFacts Nodal1 Region Assemble SpecAssemble Kernel SpecKernel Problem2 Prop_Kernel SpecProblem2 ProblemFacts FormFacts.
Import ListNotations.
Open Scope Q_scope.

(** ** cells *)
Lemma qeq_aligned q r : qeq q r -> aligned q -> aligned r.
Proof.
  destruct q as [[[[a1 a2] [b1 b2]] [c1 c2]] [d1 d2]], r as [[[[a1' a2'] [b1' b2']] [c1' c2']] [d1' d2']]. unfold qeq, aligned, peq. cbn [fst snd].
  intros [[A1 A2] [[B1 B2] [[C1 C2] [D1 D2]]]] [H1 [H2 [H3 [H4 [H5 H6]]]]]. repeat split; lra.
Qed.
Lemma qchild_aligned i q : (i < 4)%nat -> aligned q -> aligned (qchild i q).
Proof.
  destruct q as [[[[a1 a2] [b1 b2]] [c1 c2]] [d1 d2]]. intros L [H1 [H2 [H3 [H4 [H5 H6]]]]]. cbn [fst snd] in *.
  destruct i as [|[|[|[|i]]]]; [| | | |lia]; cbn; unfold aligned; cbn [fst snd]; repeat split; lra.
Qed.
Section Mesh.
Context {pts : list pt} {faces : list (list nat)} {m0 m : mesh2} (H : mesh_history pts faces m0 m) (GF : good_faces pts faces).
Lemma cell_quad_fget p c : fget (cells m) p = Some c -> cell_quad m p = quad_of (coords m c).
Proof. intros E. unfold cell_quad, quad_of, coords, vertices_of, sides_of. rewrite E. reflexivity. Qed.
Lemma shape_total p : is_cell m p -> exists q, shape_is m p q.
Proof.
  intros [c E]. destruct (C28_cells pts faces m0 m p c H E) as [L4 _]. exists (quad_of (coords m c)). exists c.
  assert (LC : length (coords m c) = 4%nat) by (unfold coords, cell_vertices; rewrite !map_length; exact L4).
  destruct (coords m c) as [|v0 [|v1 [|v2 [|v3 [|]]]]] eqn:EC; try discriminate LC. exists v0, v1, v2, v3. split; [exact E|]. split; reflexivity.
Qed.
Lemma shape_quad p q : shape_is m p q -> q = cell_quad m p.
Proof. intros [c [v0 [v1 [v2 [v3 [E [EC ->]]]]]]]. rewrite (cell_quad_fget p c E), EC. reflexivity. Qed.
Lemma root_quad i : here m [i] -> exists fc, In fc faces /\ cquad m [i] = face_quad pts fc.
Proof.
  intros Hp. pose proof (history_minv _ _ _ _ H) as M. apply (m_roots _ _ _ M) in Hp. destruct (nth_error faces i) as [fc|] eqn:Ei; [|apply nth_error_None in Ei; lia].
  exists fc. split; [eapply nth_error_In; exact Ei|]. destruct H as [PM [QF _]]. destruct (qf_nth faces i QF Hp) as [_ L4].
  unfold cquad, face_quad. destruct PM as [_ [PV _]]. rewrite Forall_forall in PV. specialize (PV fc (nth_error_In _ _ Ei)). rewrite Forall_forall in PV.
  rewrite (nth_error_nth _ _ [] Ei) in L4.
  assert (Q : forall k, (k < 4)%nat -> vx (hp m) (hbase (he (hp m) (side m [i] k))) = nth (nth k fc 0%nat) pts (0, 0)%Q).
  { intros k Lk. destruct (m_base _ _ _ M i k Hp Lk) as [-> ->]. unfold fvert. rewrite (nth_error_nth _ _ [] Ei). apply (m_vx _ _ _ M). apply PV. apply nth_In. lia. }
  rewrite !Q by lia. reflexivity.
Qed.
Lemma cell_quad_cquad p : here m p -> cell_quad m p = cquad m p.
Proof.
  intros Hp. pose proof (history_minv _ _ _ _ H) as M. pose proof Hp as Hc. apply here_fget in Hc. destruct Hc as [c E]. rewrite (cell_quad_fget p c E). apply (coords_quad m p c (m_s _ _ _ M) E).
Qed.
Lemma shape_good p q : shape_is m p q -> convex q /\ (cell_is_rectangle m p = true -> aligned q).
Proof.
  intros S. pose proof (shape_quad p q S) as ->. destruct S as [c [_ [_ [_ [_ [E _]]]]]]. split.
  - rewrite (cell_quad_fget p c E). apply (C28_convex pts faces m0 m H (fun fc I => proj1 (GF fc I _ eq_refl)) p c E).
  - assert (Hp : here m p) by (apply here_fget; eauto). rewrite (cell_quad_cquad p Hp). pose proof (history_minv _ _ _ _ H) as M. pose proof (m_s _ _ _ M) as I. clear c E.
    unfold cell_is_rectangle. induction p as [|i p IH] using rev_ind; [destruct (path_nonempty [] Hp); auto|]. destruct p as [|a p].
    + change ([] ++ [i]) with [i] in *. cbn [firstn]. rewrite (cell_quad_cquad [i] Hp). destruct (root_quad i Hp) as [fc [If ->]]. intros R. apply (proj2 (GF fc If _ eq_refl) R).
    + assert (Na : a :: p <> []) by congruence. destruct (s_fam m I _ i Na Hp) as [Li _]. intros R. eapply qeq_aligned; [apply qeq_sym, (m_kid _ _ _ M); auto|]. apply qchild_aligned; [exact Li|].
      apply IH; [eapply here_parent; eauto|]. cbn in R |- *. exact R.
Qed.
End Mesh.

(** ** dofs of a cell *)
Lemma cell_dofs_list s p n : filled n s p -> exists ds, cell_dofs1 s p = Some ds /\ gd s p = Some (map Some ds) /\ length ds = n /\ forall k d, nth_error ds k = Some d <-> dof_at s p k d.
Proof.
  intros [l [E [Ln F]]]. unfold cell_dofs1. rewrite E. set (ds := map (fun o => match o with Some d => d | None => 0%nat end) l).
  assert (EL : l = map Some ds).
  { unfold ds. rewrite map_map. rewrite <- (map_id l) at 1. apply map_ext_in. intros o I. apply In_nth_error in I. destruct I as [k I].
    assert (Lk : (k < n)%nat) by (rewrite <- Ln; apply nth_error_Some; rewrite I; discriminate). destruct (F k Lk) as [d Hd]. apply slot_dof in Hd. unfold slot in Hd. rewrite E, I in Hd. subst o. reflexivity. }
  assert (FU : full l = true).
  { unfold full. apply forallb_forall. intros o I. rewrite EL in I. apply in_map_iff in I. destruct I as [d [<- _]]. reflexivity. }
  rewrite FU. exists ds. split; [reflexivity|]. split; [congruence|]. split; [unfold ds; rewrite map_length; exact Ln|]. intros k d. rewrite <- slot_dof. unfold slot. rewrite E, EL, nth_error_map.
  destruct (nth_error ds k) as [d'|]; cbn; split; intros Q; try congruence; discriminate Q.
Qed.

(** ** shape functions *)
Section Shape.
Context (rect : bool) (q : quad) (e : elem) (HC : convex q) (HR : rect = true -> aligned q).
Lemma shape_on_value x k : shape_on e rect q V0 x k = value_on rect e k x. Proof. reflexivity. Qed.
Lemma shape_on_first i x k : shape_on e rect q (V1 i) x k = first_on rect q e k i x. Proof. reflexivity. Qed.
Lemma shape_on_second i j x k : shape_on e rect q (V2 i j) x k = second_on rect q e k i j x. Proof. reflexivity. Qed.
Lemma value_total k x : in_unit x -> (k < n_dofs D2 e)%nat -> exists y, phi2 e k x = Ok y /\ value_on rect e k x = Ok y.
Proof.
  intros U L. destruct (phi2_spec e k L) as [c [d [f1 [g1 [h1 [f2 [g2 [h2 [ij [_ [_ [_ [V _ _ _ _ _ _ _ _]]]]]]]]]]]]]. exists (f1 (fst x) * f2 (snd x)).
  unfold value_on, shape2, guard. rewrite (unit_b_in _ U). destruct x as [x1 x2]. cbn [fst snd]. rewrite V. auto.
Qed.
Lemma grad_value k x : in_unit x -> (k < n_dofs D2 e)%nat -> exists g : nat -> Q, (forall i, (i < 2)%nat -> first_on rect q e k i x = Ok (g i)) /\ cell_gradient q (value_on rect e k) x (g 0%nat) (g 1%nat).
Proof.
  intros U L. assert (G : exists gx gy, first_on rect q e k 0 x = Ok gx /\ first_on rect q e k 1 x = Ok gy /\ cell_gradient q (value_on rect e k) x gx gy).
  { destruct rect; [apply C35_gradient_rectangle; auto|apply C35_gradient_quad; auto]. }
  destruct G as [gx [gy [G1 [G2 G3]]]]. exists (fun i => if (i =? 0)%nat then gx else gy). split; [|exact G3]. intros [|[|i]] Hi; [exact G1|exact G2|lia].
Qed.
Lemma grad_first k i x : in_unit x -> (k < n_dofs D2 e)%nat -> (i < 2)%nat -> exists g : nat -> Q, (forall j, (j < 2)%nat -> second_on rect q e k i j x = Ok (g j)) /\ cell_gradient q (first_on rect q e k i) x (g 0%nat) (g 1%nat).
Proof.
  intros U L Hi. assert (G : exists gx gy, second_on rect q e k i 0 x = Ok gx /\ second_on rect q e k i 1 x = Ok gy /\ cell_gradient q (first_on rect q e k i) x gx gy).
  { destruct rect; [apply C35_hessian_rectangle; auto|apply C35_hessian_quad; auto]. }
  destruct G as [gx [gy [G1 [G2 G3]]]]. exists (fun i => if (i =? 0)%nat then gx else gy). split; [|exact G3]. intros [|[|j]] Hj; [exact G1|exact G2|lia].
Qed.
Lemma shape_total2 der x k : derivative_ok der -> in_unit x -> (k < n_dofs D2 e)%nat -> exists y, shape_on e rect q der x k = Ok y.
Proof.
  intros D U L. destruct der as [|i|i j].
  - destruct (value_total k x U L) as [y [_ E]]. exists y. exact E.
  - destruct (grad_value k x U L) as [g [E _]]. exists (g i). apply E. exact D.
  - destruct D as [D1 D2']. destruct (grad_first k i x U L D1) as [g [E _]]. exists (g j). apply E. exact D2'.
Qed.
Definition sv (der : deriv) (x : pt) (k : nat) : Q := match shape_on e rect q der x k with Ok y => y | Err _ => 0 end.
Lemma sv_ok der x k : derivative_ok der -> in_unit x -> (k < n_dofs D2 e)%nat -> shape_on e rect q der x k = Ok (sv der x k).
Proof. intros D U L. destruct (shape_total2 der x k D U L) as [y E]. unfold sv. rewrite E. reflexivity. Qed.
Lemma row_ok der x : derivative_ok der -> in_unit x -> shape_row2 e rect q der x = Ok (map (sv der x) (seq 0 (n_dofs D2 e))).
Proof. intros D U. unfold shape_row2. apply mr_ok. intros k I. apply in_seq in I. apply sv_ok; [exact D|exact U|lia]. Qed.
(** the combination with the coefficients c, and its derivatives *)
Section Comb.
Context (c : nat -> Q) (W : deriv -> pt -> Q).
Context (W0 : forall x, in_unit x -> sum (n_dofs D2 e) (fun k => c k * sv V0 x k) == W V0 x).
Context (W1 : forall x, in_unit x -> cell_gradient q (fun y => Ok (W V0 y)) x (W (V1 0) x) (W (V1 1) x)).
Context (W2 : forall x i, in_unit x -> (i < 2)%nat -> cell_gradient q (fun y => Ok (W (V1 i) y)) x (W (V2 i 0) x) (W (V2 i 1) x)).
Lemma comb_first x : in_unit x -> forall i, (i < 2)%nat -> sum (n_dofs D2 e) (fun k => c k * sv (V1 i) x k) == W (V1 i) x.
Proof.
  intros U. set (nd := n_dofs D2 e) in *.
  assert (G : cell_gradient q (combs nd c (value_on rect e)) x (sum nd (fun k => c k * sv (V1 0) x k)) (sum nd (fun k => c k * sv (V1 1) x k))).
  { apply grad_combs. intros k L. destruct (grad_value k x U L) as [g [E G]]. unfold sv. rewrite !shape_on_first, !E by lia. exact G. }
  assert (G' : cell_gradient q (fun y => Ok (W V0 y)) x (sum nd (fun k => c k * sv (V1 0) x k)) (sum nd (fun k => c k * sv (V1 1) x k))).
  { eapply gradient_ext; [exact U|exact G|reflexivity|reflexivity|]. intros y Uy. 
    destruct (combs_value nd c (value_on rect e) y (fun k => sv V0 y k)) as [v [Ev Qv]]; [intros k L; apply (sv_ok V0 y k Logic.I Uy L)|].
    exists v, (W V0 y). split; [exact Ev|]. split; [reflexivity|]. rewrite Qv. symmetry. apply W0. exact Uy. }
  destruct (C35_gradient_unique q _ x _ _ _ _ HC U G' (W1 x U)) as [E0 E1]. intros [|[|i]] Hi; [exact E0|exact E1|lia].
Qed.
Lemma comb_second x i : in_unit x -> (i < 2)%nat -> forall j, (j < 2)%nat -> sum (n_dofs D2 e) (fun k => c k * sv (V2 i j) x k) == W (V2 i j) x.
Proof.
  intros U Hi. set (nd := n_dofs D2 e) in *.
  assert (G : cell_gradient q (combs nd c (fun k => first_on rect q e k i)) x (sum nd (fun k => c k * sv (V2 i 0) x k)) (sum nd (fun k => c k * sv (V2 i 1) x k))).
  { apply grad_combs. intros k L. destruct (grad_first k i x U L Hi) as [g [E G]]. unfold sv. rewrite !shape_on_second, !E by lia. exact G. }
  assert (G' : cell_gradient q (fun y => Ok (W (V1 i) y)) x (sum nd (fun k => c k * sv (V2 i 0) x k)) (sum nd (fun k => c k * sv (V2 i 1) x k))).
  { eapply gradient_ext; [exact U|exact G|reflexivity|reflexivity|]. intros y Uy.
    destruct (combs_value nd c (fun k => first_on rect q e k i) y (fun k => sv (V1 i) y k)) as [v [Ev Qv]]; [intros k L; apply (sv_ok (V1 i) y k Hi Uy L)|].
    exists v, (W (V1 i) y). split; [exact Ev|]. split; [reflexivity|]. rewrite Qv. symmetry. apply comb_first; assumption. }
  destruct (C35_gradient_unique q _ x _ _ _ _ HC U G' (W2 x i U Hi)) as [E0 E1]. intros [|[|j]] Hj; [exact E0|exact E1|lia].
Qed.
Lemma comb_value der x : derivative_ok der -> in_unit x -> sum (n_dofs D2 e) (fun k => c k * sv der x k) == W der x.
Proof. intros D U. destruct der as [|i|i j]; [apply W0; exact U|apply comb_first; assumption|destruct D as [D1 D3]; apply comb_second; assumption]. Qed.
End Comb.
(** and every combination has derivatives *)
Lemma comb_gradients c x : in_unit x ->
  cell_gradient q (fun y => Ok (sum (n_dofs D2 e) (fun k => c k * sv V0 y k))) x (sum (n_dofs D2 e) (fun k => c k * sv (V1 0) x k)) (sum (n_dofs D2 e) (fun k => c k * sv (V1 1) x k)) /\
  forall i, (i < 2)%nat -> cell_gradient q (fun y => Ok (sum (n_dofs D2 e) (fun k => c k * sv (V1 i) y k))) x (sum (n_dofs D2 e) (fun k => c k * sv (V2 i 0) x k)) (sum (n_dofs D2 e) (fun k => c k * sv (V2 i 1) x k)).
Proof.
  intros U. set (nd := n_dofs D2 e). split.
  - assert (G : cell_gradient q (combs nd c (value_on rect e)) x (sum nd (fun k => c k * sv (V1 0) x k)) (sum nd (fun k => c k * sv (V1 1) x k))).
    { apply grad_combs. intros k L. destruct (grad_value k x U L) as [g [E G]]. unfold sv. rewrite !shape_on_first, !E by lia. exact G. }
    eapply gradient_ext; [exact U|exact G|reflexivity|reflexivity|]. intros y Uy.
    destruct (combs_value nd c (value_on rect e) y (fun k => sv V0 y k)) as [v [Ev Qv]]; [intros k L; apply (sv_ok V0 y k Logic.I Uy L)|].
    exists v. eexists. split; [exact Ev|]. split; [reflexivity|]. rewrite Qv. reflexivity.
  - intros i Hi. assert (G : cell_gradient q (combs nd c (fun k => first_on rect q e k i)) x (sum nd (fun k => c k * sv (V2 i 0) x k)) (sum nd (fun k => c k * sv (V2 i 1) x k))).
    { apply grad_combs. intros k L. destruct (grad_first k i x U L Hi) as [g [E G]]. unfold sv. rewrite !shape_on_second, !E by lia. exact G. }
    eapply gradient_ext; [exact U|exact G|reflexivity|reflexivity|]. intros y Uy.
    destruct (combs_value nd c (fun k => first_on rect q e k i) y (fun k => sv (V1 i) y k)) as [v [Ev Qv]]; [intros k L; apply (sv_ok (V1 i) y k Hi Uy L)|].
    exists v. eexists. split; [exact Ev|]. split; [reflexivity|]. rewrite Qv. reflexivity.
Qed.
End Shape.
Lemma sums_to_sum n (f : nat -> res Q) s (y : nat -> Q) : sums_to n f s -> (forall k, (k < n)%nat -> f k = Ok (y k)) -> s == sum n y.
Proof.
  intros [l [Ln [Hl E]]] Hy. rewrite <- E. rewrite sum_fold.
  assert (Q : l = map y (seq 0 n)).
  { apply (nth_ext _ _ 0 0); [rewrite map_length, seq_length; exact Ln|]. intros i Li. rewrite nth_seq_map by lia. destruct (nth_error l i) as [v|] eqn:Ei; [|apply nth_error_None in Ei; lia].
    rewrite (nth_error_nth l i 0 Ei). specialize (Hl i v Ei). rewrite (Hy i) in Hl by lia. congruence. }
  rewrite Q. reflexivity.
Qed.

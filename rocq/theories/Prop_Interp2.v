(** * C90: interpolation on quadrilateral meshes is exact for polynomials *)
From Coq Require Import List Arith Bool Lia Permutation QArith Qabs Lqa.
From Verif Require Import Tree Forest SpecForest Geom SpecGeom QuadGeomFacts Dcel SpecDcel Quad SpecQuad TreeFacts ForestFacts QuadFacts QuadSplit QuadInv QuadNb DcelFacts QuadInit QuadUniq QuadStart QuadCoords QuadHist Prop_QuadMesh
  Fem SpecFem ShapeFacts Dof SpecDof DofFacts Dof2 SpecDof2 Dof2Hist Prop_Dof2 Prop_Balance SpecHang Prop_Hang Basis Solver SolverFacts Nodal NodalFacts SpecNodal Nodal1 Problem2 SpecProblem2 Problem2Facts Problem2Main NodalQ SpecNodalQ NodalQFacts
  DofVert2 SpecDofVert2 Prop_NodalQ SpecInterp2 Poly2Facts.
From Verif Require Prop_Problem2 AssembleFacts Region Nodal1Facts Prop_DofVert Prop_Dirichlet2 Prop_Shape.
Import ListNotations.
Open Scope Q_scope.

(** the derivatives of a polynomial *)
Lemma derivatives_poly c F : derivatives_of (poly2 c) F ->
  (forall i z, (i < 2)%nat -> F (V1 i) z == poly2 (pdi i c) z) /\ forall i j z, (i < 2)%nat -> (j < 2)%nat -> F (V2 i j) z == poly2 (pdi j (pdi i c)) z.
Proof.
  assert (G : forall (f : pt -> Q) c' z g0 g1, (forall z', f z' == poly2 c' z') -> partial_at f z g0 g1 -> g0 == poly2 (pdx c') z /\ g1 == poly2 (pdy c') z).
  { intros f c' z g0 g1 E [A B]. destruct (pd2_partial c' z) as [A' B']. split.
    - apply (deriv_unique _ _ _ _ _ (fun y => E _) A A').
    - apply (deriv_unique _ _ _ _ _ (fun y => E _) B B'). }
  intros [E0 [E1 E2]]. assert (D1 : forall i z, (i < 2)%nat -> F (V1 i) z == poly2 (pdi i c) z).
  { intros i z Hi. destruct (G (F V0) c z _ _ E0 (E1 z)) as [A B]. destruct i as [|[|i]]; [exact A|exact B|lia]. }
  split; [exact D1|]. intros i j z Hi Hj. destruct (G (F (V1 i)) (pdi i c) z _ _ (fun z' => D1 i z' Hi) (E2 i z Hi)) as [A B]. destruct j as [|[|j]]; [exact A|exact B|lia].
Qed.
Lemma derivatives_peq c F der z z' : derivatives_of (poly2 c) F -> derivative_ok der -> peq z z' -> F der z == F der z'.
Proof.
  intros DF D P. destruct (derivatives_poly c F DF) as [D1 D2]. destruct der as [|i|i j].
  - rewrite !(proj1 DF). apply poly2_proper, P.
  - rewrite !D1 by exact D. apply poly2_proper, P.
  - destruct D as [Hi Hj]. rewrite !D2 by assumption. apply poly2_proper, P.
Qed.

Section Use.
Context {pts : list pt} {faces : list (list nat)} {e : elem} {m : mesh2} {sf : option flag} {s : dofs} {L : list nat} {B : list (option nat) * list nat}.
Context (U : in_use2 pts faces e m sf s L B).
Lemma tens_exact c v W F p q : tens (S (degree e)) (S (degree e)) (fun y => poly2 c (qmap q (fst y) (snd y))) -> derivatives_of (poly2 c) F ->
  (forall d z, In d L -> at_point e m s d z -> v d == poly2 c z) -> represents2 e m sf s v W -> sub_leaf (cells m) sf p -> shape_is m p q ->
  forall der x, in_unit x -> derivative_ok der -> W der p x == F der (qmap q (fst x) (snd x)).
Proof.
  intros [c' [Lc [Rc Ec]]] DF Hv RW Lp S der x Ux D. destruct (u_mesh U) as [m0 MH].
  assert (FI : forall p, sub_leaf (cells m) sf p -> filled (n_dofs D2 e) s p) by (intros p' Lp'; apply (u_filled U p' (leaf_in p' Lp'))).
  pose (M := Region.mkR m 0%nat (fun _ _ => false) (fun _ _ => false)). destruct (cell_dofs_list s p _ (FI p Lp)) as [ds [Ed [Eg [Ld _]]]].
  rewrite <- (fe_value M sf e s MH (u2_faces _ _ _ _ _ _ _ _ U) FI v W p ds der x RW Lp Ed D Ux).
  pose proof (shape_quad p q S) as Q. change (Region.rm M) with m. destruct (shape_good MH (u2_faces _ _ _ _ _ _ _ _ U) p q S) as [C A]. rewrite Q in *. clear Q.
  apply (comb_value (cell_is_rectangle m p) (cell_quad m p) e C A (fun k => v (nth k ds 0%nat)) (fun dr y => F dr (qmap (cell_quad m p) (fst y) (snd y)))); [| | |exact D|exact Ux].
  - intros y Uy. rewrite (proj1 DF), Ec. symmetry.
    eapply Qeq_trans; [apply (sums_to_sum _ _ _ (fun k => poly2 c' (nth k (reference_nodes2 e) (0, 0)) * sv (cell_is_rectangle m p) (cell_quad m p) e V0 y k) (Prop_Shape.C31_reproduces_2d e c' y Lc Rc))|].
    + intros k Lk. unfold at_. destruct (nth_error (reference_nodes2 e) k) as [nd|] eqn:En.
      2:{ exfalso. apply nth_error_None in En. rewrite Node2Facts.nodes2_len in En. unfold Node2Facts.nd2 in En. lia. }
      cbn [bind]. rewrite (nth_error_nth _ _ _ En). destruct (value_total (cell_is_rectangle m p) e k y Uy Lk) as [z [Ez Ev]]. rewrite Ez. cbn [bind]. unfold sv. rewrite shape_on_value, Ev. reflexivity.
    + apply sum_ext. intros k Lk. apply Qmult_comp; [|reflexivity]. rewrite <- Ec. symmetry.
      assert (Dk : dof_at s p k (nth k ds 0%nat)). { exists (map Some ds). split; [exact Eg|]. rewrite nth_error_map, (nth_error_nth' ds 0%nat) by lia. reflexivity. }
      apply Hv; [apply (u2_dofs _ _ _ _ _ _ _ _ U); eauto|]. exists p, k, (qmap (cell_quad m p) (fst (nth k (reference_nodes2 e) (0, 0))) (snd (nth k (reference_nodes2 e) (0, 0)))).
      split; [exact Dk|]. split; [|split; reflexivity]. destruct S as [cl [v0 [v1 [v2 [v3 [Efg [Eco EQ]]]]]]].
      exists cl, (nth k (reference_nodes2 e) (0, 0)), v0, v1, v2, v3. split; [exact Efg|]. split; [|split; [exact Eco|rewrite EQ; reflexivity]].
      apply nth_error_nth'. rewrite Node2Facts.nodes2_len. unfold Node2Facts.nd2. exact Lk.
  - intros y Uy. destruct (derivatives_poly c F DF) as [D1 _]. apply (poly_gradient (cell_quad m p) c y _ _ (F V0) Uy (proj1 DF)); [apply (D1 0%nat)|apply (D1 1%nat)]; lia.
  - intros y i Uy Hi. destruct (derivatives_poly c F DF) as [D1 D2]. apply (poly_gradient (cell_quad m p) (pdi i c) y _ _ (F (V1 i)) Uy (fun z => D1 i z Hi)); [apply (D2 i 0%nat)|apply (D2 i 1%nat)]; lia.
Qed.
(** the cells of all levels are rectangles with sides parallel to the axes *)
Lemma shape_aligned p q : aligned_faces pts faces -> shape_is m p q -> aligned q.
Proof.
  intros AF S. destruct (u_mesh U) as [m0 MH]. pose proof (shape_quad p q S) as ->. destruct S as [c [_ [_ [_ [_ [E _]]]]]].
  assert (Hp : here m p) by (apply here_fget; eauto). rewrite (cell_quad_cquad MH p Hp). pose proof (history_minv _ _ _ _ MH) as M. pose proof (m_s _ _ _ M) as I. clear c E.
  induction p as [|i p IH] using rev_ind; [destruct (path_nonempty [] Hp); auto|]. destruct p as [|a p].
  - change ([] ++ [i]) with [i] in *. destruct (root_quad MH i Hp) as [fc [If ->]]. apply (AF fc If).
  - assert (Na : a :: p <> []) by congruence. destruct (s_fam m I _ i Na Hp) as [Li _]. eapply qeq_aligned; [apply qeq_sym, (m_kid _ _ _ M); auto|]. apply QuadGeomFacts.aligned_child; [exact Li|].
    apply IH. eapply here_parent; eauto.
Qed.
End Use.

(** ** The theorems *)
(** the finite element function that has, at the points of its dofs, the values of a polynomial of
    the (total) degree of the element at most is that polynomial, and its derivatives are those of
    the polynomial, in every leaf of the submesh, on any mesh of convex quadrilaterals *)
Theorem C90_exact pts faces e m sf s L B c F v W :
  in_use2 pts faces e m sf s L B -> total_degree (degree e) c -> derivatives_of (poly2 c) F ->
  (forall d z, In d L -> at_point e m s d z -> v d == poly2 c z) -> represents2 e m sf s v W ->
  forall p q x der, sub_leaf (cells m) sf p -> shape_is m p q -> in_unit x -> derivative_ok der -> W der p x == F der (qmap q (fst x) (snd x)).
Proof.
  intros U T DF Hv RW p q x der Lp Sh Ux D. apply (tens_exact U c v W F p q); try assumption.
  destruct (qmap_bilin q) as [k0 [k1 [k2 [k3 [l0 [l1 [l2 [l3 E]]]]]]]].
  eapply tens_ext; [|apply (comp_total (fun y => fst (qmap q (fst y) (snd y))) (fun y => snd (qmap q (fst y) (snd y))) k0 k1 k2 k3 l0 l1 l2 l3 (fun y => proj1 (E y)) (fun y => proj2 (E y)) c (S (degree e)) T)].
  intros z. cbn beta. destruct (qmap q (fst z) (snd z)). reflexivity.
Qed.
Print Assumptions C90_exact.
(** if the cells are rectangles with sides parallel to the axes: also for polynomials of the degree of
    the element in each variable *)
Theorem C90_exact_aligned pts faces e m sf s L B c F v W :
  in_use2 pts faces e m sf s L B -> aligned_faces pts faces -> degree_each (degree e) c -> derivatives_of (poly2 c) F ->
  (forall d z, In d L -> at_point e m s d z -> v d == poly2 c z) -> represents2 e m sf s v W ->
  forall p q x der, sub_leaf (cells m) sf p -> shape_is m p q -> in_unit x -> derivative_ok der -> W der p x == F der (qmap q (fst x) (snd x)).
Proof.
  intros U AF [T1 T2] DF Hv RW p q x der Lp Sh Ux D. apply (tens_exact U c v W F p q); try assumption. pose proof (shape_aligned U p q AF Sh) as A.
  destruct q as [[[q0 q1] q2] q3]. destruct A as [A1 [A2 [A3 [A4 _]]]].
  eapply tens_ext; [|apply (comp_each (fun y => fst (qmap (q0, q1, q2, q3) (fst y) (snd y))) (fun y => snd (qmap (q0, q1, q2, q3) (fst y) (snd y))) (fst q0) (fst q1 - fst q0) (snd q0) (snd q3 - snd q0)
    ltac:(intros z; unfold qmap; cbn [fst snd]; rewrite <- A1, <- A2; ring) ltac:(intros z; unfold qmap; cbn [fst snd]; rewrite <- A3, A4; ring) (S (degree e)) c (S (degree e)) T1 T2)].
  intros z. cbn beta. destruct (qmap (q0, q1, q2, q3) (fst z) (snd z)). reflexivity.
Qed.
Print Assumptions C90_exact_aligned.
(** the interpolant of a function that is such a polynomial, evaluated by Nodal.eval at points of the
    mesh: the exact values of the polynomial and of its derivatives *)
Theorem C90_interpolant pts faces e m sf s L B dv fs nd tol sl der xs :
  in_use2 pts faces e m sf s L B -> par_faces pts faces -> vertex_history2 edit pts faces e m s dv -> (forall d, In d L -> has_vertex2 dv d) ->
  0 <= tol -> set_order sl -> derivative_ok der -> (forall x, In x xs -> covered m x /\ clear tol m x) -> nodal_from2 dv B fs = Ok nd ->
  exists R, nodal_eval2 tol e m sf s sl None der nd xs = Ok R /\ length R = length xs /\
    forall j x r t f c F, nth_error xs j = Some x -> nth_error R j = Some r -> nth_error fs t = Some f ->
      (forall z, f z == poly2 c z) -> derivatives_of (poly2 c) F ->
      total_degree (degree e) c \/ aligned_faces pts faces /\ degree_each (degree e) c ->
      nth t r 0 == F der x.
Proof.
  intros U PF VH HV HT SL D X EN. destruct (C89_interpolant pts faces e m sf s L B dv fs U VH HV) as [data [E [AR [_ Hval]]]].
  rewrite EN in E. injection E as ->. destruct (C89_values_partial pts faces e m sf s L B tol sl der data (length fs) xs U PF HT SL AR D X) as [R [ER [LR HR]]].
  exists R. split; [exact ER|]. split; [exact LR|]. intros j x r t f c F Ex Er Ef Efc DF Hdeg.
  destruct (HR j x r Ex Er) as [_ [p [xi [[Lp [q [Sh [Ux Mx]]]] Hv]]]].
  set (v := fun d => match dof_vertex2 None dv (Some d) with Ok (z :: _) => poly2 c z | _ => 0 end).
  assert (Ev : forall d z, In d L -> at_point e m s d z -> v d == poly2 c z).
  { intros d z Hd Az. destruct (HV d Hd) as [y Ey]. pose proof (proj1 (Prop_Dirichlet2.C87_positions pts faces e m s dv VH) [d] [y] Ey) as FA. inversion FA as [|? ? ? ? Ay]; subst.
    assert (Ed : dof_vertex2 None dv (Some d) = Ok [y]).
    { unfold get_dof_vertices2 in Ey. cbn [fold_res] in Ey. destruct (dof_vertex2 None dv (Some d)) as [l|]; [|discriminate Ey]. cbn [bind app] in Ey. exact Ey. }
    unfold v. rewrite Ed. apply poly2_proper. exact (Prop_Dirichlet2.C87_unique pts faces e m s dv VH d y z Ay Az). }
  destruct (C89_functions pts faces e m sf s L B v U) as [W RW].
  assert (Ht : (t < length fs)%nat) by (apply nth_error_Some; congruence).
  rewrite (Hv t v W Ht (Hval t f v Ef (fun d z Hd Az => Qeq_trans _ _ _ (Ev d z Hd Az) (Qeq_sym _ _ (Efc z)))) RW).
  transitivity (F der (qmap q (fst xi) (snd xi))); [|apply (derivatives_peq c F der _ _ DF D Mx)].
  destruct Hdeg as [T|[AF T]].
  - exact (C90_exact pts faces e m sf s L B c F v W U T DF Ev RW p q xi der Lp Sh Ux D).
  - exact (C90_exact_aligned pts faces e m sf s L B c F v W U AF T DF Ev RW p q xi der Lp Sh Ux D).
Qed.
Print Assumptions C90_interpolant.
(** a polynomial has derivatives, of its own kind *)
Theorem C90_derivatives c : exists F, derivatives_of (poly2 c) F.
Proof.
  exists (fun der z => match der with V0 => poly2 c z | V1 i => poly2 (pdi i c) z | V2 i j => poly2 (pdi j (pdi i c)) z end).
  split; [reflexivity|]. split; [intros z; exact (pd2_partial c z)|]. intros i z Hi. exact (pd2_partial (pdi i c) z).
Qed.
Print Assumptions C90_derivatives.

(** ** A case: Q2 on a 2 x 1 grid with a refined cell, x^2 y^2 + x y + 3 y, derivative in x *)
From Verif Require Import Grid2 GridFacts DofVert DofVert2 SpecDofVert2 DofVert2Facts DofVert2Hist Prop_Dirichlet2.
From Verif Require Prop_Assemble Prop_Grid.
Open Scope Q_scope.
Lemma grid_aligned nx ny (xa xb ya yb : Q) : xa < xb -> ya < yb -> aligned_faces (grid_points xa xb ya yb nx ny) (grid_faces nx ny).
Proof.
  intros Hx Hy fc If.
  destruct (in_grid_faces _ _ _ If) as [ix [iy [Lx [Ly Ef]]]].
  destruct (Prop_Grid.C25_faces nx ny ix iy xa xb ya yb Lx Ly) as (a & b & c & e & pa & pb & pc & pe & E & A1 & A2 & A3 & A4 & A5).
  rewrite grid_faces_nth in E by auto. rewrite Ef. injection E as E1 E2 E3 E4. unfold grid_face. cbn [nth].
  rewrite E1, E2, E3, E4, (nth_error_nth _ _ _ A1), (nth_error_nth _ _ _ A2), (nth_error_nth _ _ _ A3), (nth_error_nth _ _ _ A4).
  destruct A5 as ([u1 v1] & [u2 v2] & [u3 v3] & [u4 v4] & A6). destruct (A6 Hx Hy) as [W1 [W2 _]]. cbn [fst snd] in *.
  unfold aligned. cbn [fst snd]. rewrite u1, u2, u3, u4, v1, v2, v3, v4. repeat split; auto; reflexivity.
Qed.
Definition ni_c : list (list Q) := [[0; 3]; [0; 1%Q]; [0; 0; 1%Q]].
Definition ni_dx (z : pt) : Q := snd z + 2 * fst z * (snd z * snd z).
Definition ni_check (r : res (mesh2 * (mesh2 * (dofs * dverts2)))) : bool :=
  match r with Err _ => false | Ok (m0, (m, (s, v))) =>
  match make_basis2 m None s Prop_Assemble.sorted_set with Err _ => false | Ok B =>
  match nodal_from2 v B [poly2 ni_c] with Err _ => false | Ok nd =>
  (length (snd B) =? 31)%nat && forallb (clearb (1 # 10000000000) m) nq_points && forallb (coveredb m) nq_points end end end.
Lemma ni_run : ni_check (vgrid 2 1 2 1 Q2 case_cs) = true.
Proof. vm_cast_no_check (eq_refl true). Qed.
Example C90_case : exists m s v B nd R, let pts := grid_points 0 2 0 1 2 1 in let faces := grid_faces 2 1 in
  in_use2 pts faces Q2 m None s (snd B) B /\ par_faces pts faces /\ aligned_faces pts faces /\ vertex_history2 edit pts faces Q2 m s v /\
  (forall d, In d (snd B) -> has_vertex2 v d) /\ length (snd B) = 31%nat /\ degree_each (degree Q2) ni_c /\ ~ total_degree (degree Q2) ni_c /\
  (forall x, In x nq_points -> covered m x /\ clear (1 # 10000000000) m x) /\
  nodal_from2 v B [poly2 ni_c] = Ok nd /\ nodal_eval2 (1 # 10000000000) Q2 m None s Prop_Assemble.sorted_set None (V1 0) nd nq_points = Ok R /\ length R = 3%nat /\
  forall j x r, nth_error nq_points j = Some x -> nth_error R j = Some r -> nth 0 r 0 == ni_dx x.
Proof.
  pose proof ni_run as E. destruct (vgrid 2 1 2 1 Q2 case_cs) as [[m0 [m [s v]]]|] eqn:EV; [|discriminate E]. unfold ni_check in E.
  destruct (vgrid_history 2 1 2 1 Q2 case_cs m0 m s v (grid_ok 2 1 2 1) (Prop_QuadMesh.grid_quads 2 1) EV) as [[m1 [MH ->]] VH].
  destruct (vgrid_filled 2 1 2 1 Q2 (Some (CSplit None [1%nat])) m0 m s v EV ltac:(discriminate)) as [F1 F2].
  destruct (make_basis2 m None s Prop_Assemble.sorted_set) as [B|] eqn:EB; [|discriminate E].
  destruct (nodal_from2 v B [poly2 ni_c]) as [nd|] eqn:EN; [|discriminate E].
  apply andb_true_iff in E. destruct E as [E E3]. apply andb_true_iff in E. destruct E as [E1 E2].
  apply Nat.eqb_eq in E1. rewrite forallb_forall in E2, E3.
  assert (HI := vgrid_distributed 2 1 2 1 Q2 (Some (CSplit None [1%nat])) m0 m s v EV ltac:(discriminate)).
  assert (GF := Prop_Problem2.grid_good 2 1 0 2 0 1 eq_refl eq_refl). assert (PF := grid_par 2 1 0 2 0 1 eq_refl eq_refl).
  assert (AF := grid_aligned 2 1 0 2 0 1 eq_refl eq_refl).
  assert (U := C89_basis _ _ Q2 m None s _ B GF HI Logic.I sorted_order EB).
  assert (HV : forall d, In d (snd B) -> has_vertex2 v d) by (intros d I; apply (u2_dofs _ _ _ _ _ _ _ _ U) in I; destruct I as [p [k [Lp Dk]]]; exact (F2 p k d Lp Dk)).
  assert (X : forall x, In x nq_points -> covered m x /\ clear (1 # 10000000000) m x).
  { intros x I. split; [|apply clearb_ok, E2, I]. specialize (E3 x I). apply existsb_exists in E3. destruct E3 as [i [_ Ei]]. destruct (fget (cells m) [i]) as [c|] eqn:Ec; [|discriminate Ei].
    destruct (shape_total MH [i] (ex_intro _ c Ec)) as [q Sh]. pose proof (shape_quad [i] q Sh) as Q. exists i, q. split; [exact Sh|]. subst q. apply qcontains_0. exact Ei. }
  destruct (C90_interpolant _ _ Q2 m None s (snd B) B v [poly2 ni_c] nd (1 # 10000000000) Prop_Assemble.sorted_set (V1 0) nq_points U PF VH HV ltac:(discriminate) sorted_order Nat.lt_0_2 X EN) as [R [ER [LR HR]]].
  assert (DE : degree_each (degree Q2) ni_c) by (split; [cbn; lia|repeat constructor; cbn; lia]).
  exists m, s, v, B, nd, R. cbv zeta. do 5 (split; [assumption|]). split; [exact E1|]. split; [exact DE|].
  split; [intros T; destruct (T 2%nat _ eq_refl) as [Q|Q]; [discriminate Q|cbn in Q; lia]|].
  split; [exact X|]. split; [exact EN|]. split; [exact ER|]. split; [exact LR|]. intros j x r Ex Er. destruct (C90_derivatives ni_c) as [F DF].
  rewrite (HR j x r 0%nat (poly2 ni_c) ni_c F Ex Er eq_refl (fun z => Qeq_refl _) DF (or_intror (conj AF DE))).
  destruct (derivatives_poly ni_c F DF) as [D1 _]. rewrite (D1 0%nat x Nat.lt_0_2). unfold ni_dx. cbn. ring.
Qed.

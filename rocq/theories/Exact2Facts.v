(** * Integrals over the cells of a 2D mesh: linearity, sign; finite element functions as polynomials *)
From Coq Require Import List Arith Bool Lia QArith Qabs Lqa.
From Verif Require Import Tree Forest SpecForest Geom SpecGeom QuadGeomFacts Solver SolverFacts Dcel SpecDcel Quad SpecQuad QuadFacts QuadInv QuadHist QuadCoords QuadStart Prop_QuadMesh
  Fem SpecFem ShapeFacts Dof SpecDof Dof2 SpecDof2 SpecHang Basis Assemble SpecAssemble Region SpecRegion Problem2 SpecProblem2 Problem2Facts Problem2Main DofVert2 SpecDofVert2 Poly2Facts SpecExact2.
From Verif Require ExactFacts Prop_Problem2 Prop_Shape Nodal1Facts SurfFacts ProblemFacts.
Import ListNotations.
Open Scope Q_scope.

Section Integrals.
Context (M : rmesh) (crule : list pt * list Q) (erule : list Q * list Q) (norm : pt -> Q).
Context (RO : rules_ok crule erule).
Notation I mu fl p h := (integral2 M crule erule norm mu fl p h).
Lemma unit_side k t : In k [0; 1; 2; 3]%nat -> 0 <= t <= 1 -> in_unit (side_pt k t).
Proof. intros K T. apply SurfFacts.unit_side; [cbn in K; lia|exact T]. Qed.
Lemma unit_corner' k : in_unit (corner k).
Proof. apply SurfFacts.unit_corner. Qed.
Lemma int2_ext mu fl p h h' : (forall x, in_unit x -> h x == h' x) -> I mu fl p h == I mu fl p h'.
Proof.
  intros E. destruct RO as [[_ R1] [_ R2]]. unfold integral2. destruct (fget _ p) as [c|]; [|reflexivity]. destruct (coords (rm M) c) as [|a [|b [|c' [|d [|]]]]]; try reflexivity.
  destruct mu.
  - destruct (has2 _ _); [|reflexivity]. apply ExactFacts.tot_ext. intros [x w] J. cbn [fst snd]. rewrite (E x (R1 x (in_combine_l _ _ _ _ J))). reflexivity.
  - apply ExactFacts.tot_ext. intros k K. destruct (has2 _ _); [|reflexivity]. apply ExactFacts.tot_ext. intros [r w] J. cbn [fst snd]. rewrite (E _ (unit_side k r K (R2 r (in_combine_l _ _ _ _ J)))). reflexivity.
  - apply ExactFacts.tot_ext. intros k _. destruct (has2 _ _); [|reflexivity]. apply E, unit_corner'.
Qed.
Lemma int2_lin mu fl p k h h' : I mu fl p (fun x => h x + k * h' x) == I mu fl p h + k * I mu fl p h'.
Proof.
  unfold integral2. destruct (fget _ p) as [c|]; [|ring]. destruct (coords (rm M) c) as [|a [|b [|c' [|d [|]]]]]; try ring.
  destruct mu.
  - destruct (has2 _ _); [|ring]. unfold over_square. rewrite <- ExactFacts.tot_scal, <- ExactFacts.tot_plus. apply ExactFacts.tot_ext. intros; ring.
  - rewrite <- ExactFacts.tot_scal, <- ExactFacts.tot_plus. apply ExactFacts.tot_ext. intros j _. destruct (has2 _ _); [|ring]. unfold over_side. rewrite <- ExactFacts.tot_scal, <- ExactFacts.tot_plus. apply ExactFacts.tot_ext. intros; ring.
  - rewrite <- ExactFacts.tot_scal, <- ExactFacts.tot_plus. apply ExactFacts.tot_ext. intros j _. destruct (has2 _ _); ring.
Qed.
Context (PW : positive_rules crule erule) (PN : forall z, 0 <= norm z).
Lemma int2_nonneg mu fl p q h : shape_is (rm M) p q -> convex q -> (forall x, in_unit x -> 0 <= h x) -> 0 <= I mu fl p h.
Proof.
  intros [c [v0 [v1 [v2 [v3 [Ec [Ev ->]]]]]]] C H. destruct RO as [[_ R1] [_ R2]]. destruct PW as [W1 W2]. unfold integral2. rewrite Ec, Ev.
  destruct mu.
  - destruct (has2 _ _); [|lra]. apply ExactFacts.tot_nonneg. intros [x w] J. cbn [fst snd]. pose proof (R1 x (in_combine_l _ _ _ _ J)) as U. pose proof (W1 w (in_combine_r _ _ _ _ J)) as W.
    destruct x as [x1 x2]. pose proof (det_pos (v0, v1, v2, v3) x1 x2 C U) as D. apply Qmult_le_0_compat; [apply Qmult_le_0_compat; cbn [fst snd]; lra|apply H; exact U].
  - apply ExactFacts.tot_nonneg. intros k K. destruct (has2 _ _); [|lra]. apply ExactFacts.tot_nonneg. intros [r w] J. cbn [fst snd]. pose proof (W2 w (in_combine_r _ _ _ _ J)) as W.
    apply Qmult_le_0_compat; [apply Qmult_le_0_compat; [lra|apply PN]|apply H, (unit_side k r K), R2, (in_combine_l _ _ _ _ J)].
  - apply ExactFacts.tot_nonneg. intros k _. destruct (has2 _ _); [|lra]. apply H, unit_corner'.
Qed.
Lemma int2_zero p q h : shape_is (rm M) p q -> convex q -> (forall x, in_unit x -> 0 <= h x) -> I Dx2 None p h == 0 -> forall x, In x (fst crule) -> h x == 0.
Proof.
  intros [c [v0 [v1 [v2 [v3 [Ec [Ev ->]]]]]]] C H Z x Ix. destruct RO as [[R0 R1] [_ R2]]. destruct PW as [W1 W2]. unfold integral2 in Z. rewrite Ec, Ev in Z. cbn [has2] in Z.
  assert (J : exists w, In (x, w) (combine (fst crule) (snd crule))).
  { clear - R0 Ix. destruct crule as [xs ws]. cbn in *. revert ws R0. induction xs as [|y xs IH]; intros [|w ws] L; cbn in *; try lia; try tauto. destruct Ix as [->|Ix]; [exists w; auto|]. destruct (IH Ix ws ltac:(lia)) as [w' J]. exists w'. auto. }
  destruct J as [w J]. assert (NN : forall xw, In xw (combine (fst crule) (snd crule)) -> 0 <= snd xw * qdet (qjac (v0, v1, v2, v3) (fst (fst xw)) (snd (fst xw))) * h (fst xw)).
  { intros [y wy] Jy. cbn [fst snd]. pose proof (R1 y (in_combine_l _ _ _ _ Jy)) as U. pose proof (W1 wy (in_combine_r _ _ _ _ Jy)) as W.
    destruct y as [x1 x2]. pose proof (det_pos (v0, v1, v2, v3) x1 x2 C U) as D. apply Qmult_le_0_compat; [apply Qmult_le_0_compat; cbn [fst snd]; lra|apply H; exact U]. }
  pose proof (ExactFacts.tot_zero _ _ NN Z (x, w) J) as E. cbn [fst snd] in E. pose proof (W1 w (in_combine_r _ _ _ _ J)) as W. destruct x as [x1 x2]. pose proof (det_pos (v0, v1, v2, v3) x1 x2 C (R1 _ Ix)) as D. cbn [fst snd] in E.
  destruct (Qeq_dec (h (x1, x2)) 0) as [G|G]; [exact G|]. exfalso. assert (0 < w * qdet (qjac (v0, v1, v2, v3) x1 x2)) by (apply Qmult_lt_0_compat; assumption).
  apply Qmult_integral in E. destruct E as [E|E]; [lra|contradiction].
Qed.
(** the bilinear form in its second argument *)
Lemma bil2_ext bases terms ps Z V V' : (forall t j, In t terms -> f2_trial (fst t) = Some j -> forall p x, In p ps -> in_unit x -> V (der_of2 bases j) p x == V' (der_of2 bases j) p x) ->
  bilinear_value2 M crule erule norm bases terms ps Z V == bilinear_value2 M crule erule norm bases terms ps Z V'.
Proof.
  intros E. apply ExactFacts.tot_ext. intros p Ip. apply ExactFacts.tot_ext. intros t It. destruct (f2_test (fst t)) as [i|]; [|reflexivity]. destruct (f2_trial (fst t)) as [j|] eqn:Ej; [|reflexivity].
  apply int2_ext. intros x Ux. rewrite (E t j It Ej p x Ip Ux). reflexivity.
Qed.
Lemma bil2_minus bases terms ps Z V W :
  bilinear_value2 M crule erule norm bases terms ps Z (fun der p x => V der p x - W der p x) ==
  bilinear_value2 M crule erule norm bases terms ps Z V - bilinear_value2 M crule erule norm bases terms ps Z W.
Proof.
  unfold bilinear_value2.
  setoid_replace (total (fun p => total (fun t : term2 => match f2_test (fst t), f2_trial (fst t) with
    | Some i, Some j => I (f2_dmu (fst t)) (f2_flag (fst t)) p (fun x => snd t p x * Z (der_of2 bases i) p x * (V (der_of2 bases j) p x - W (der_of2 bases j) p x)) | _, _ => 0 end) terms) ps)
    with (total (fun p => total (fun t : term2 => match f2_test (fst t), f2_trial (fst t) with
    | Some i, Some j => I (f2_dmu (fst t)) (f2_flag (fst t)) p (fun x => snd t p x * Z (der_of2 bases i) p x * V (der_of2 bases j) p x) | _, _ => 0 end) terms + - (1) * total (fun t : term2 => match f2_test (fst t), f2_trial (fst t) with
    | Some i, Some j => I (f2_dmu (fst t)) (f2_flag (fst t)) p (fun x => snd t p x * Z (der_of2 bases i) p x * W (der_of2 bases j) p x) | _, _ => 0 end) terms) ps).
  - rewrite ExactFacts.tot_plus, ExactFacts.tot_scal. ring.
  - apply ExactFacts.tot_ext. intros p _. rewrite <- ExactFacts.tot_scal, <- ExactFacts.tot_plus. apply ExactFacts.tot_ext. intros t _. destruct (f2_test (fst t)) as [i|]; [|ring]. destruct (f2_trial (fst t)) as [j|]; [|ring].
    rewrite <- int2_lin. apply int2_ext. intros x _. ring.
Qed.
End Integrals.

(** ** A finite element function in a cell is a polynomial *)
Lemma tens_prod (a b : list Q) : tens (length a) (length b) (fun z => poly a (fst z) * poly b (snd z)).
Proof.
  exists (map (fun x => pscale x b) a). split; [rewrite map_length; lia|]. split; [apply Forall_forall; intros r I; apply in_map_iff in I; destruct I as [x [<- _]]; rewrite pscale_len; lia|].
  intros z. induction a as [|x a IH]; [cbn; ring|]. cbn [map poly]. rewrite poly2_cons, <- IH, pscale_ok. ring.
Qed.
Lemma tens_sum a b n (f : nat -> pt -> Q) : (forall k, (k < n)%nat -> tens a b (f k)) -> tens a b (fun z => sum n (fun k => f k z)).
Proof.
  intros H. assert (G : forall l, (forall k, In k l -> (k < n)%nat) -> tens a b (fun z => sumQ (map (fun k => f k z) l))).
  { induction l as [|k l IH]; intros L; [apply tens_zero|]. cbn [map sumQ]. apply (tens_add a b (f k) (fun z => sumQ (map (fun k => f k z) l))); [apply H, L; left; reflexivity|apply IH; intros j J; apply L; right; exact J]. }
  eapply tens_ext; [|apply (G (seq 0 n)); intros k I; apply in_seq in I; lia]. intros z. rewrite ProblemFacts.sum_fold. reflexivity.
Qed.
Section FE.
Context {pts : list pt} {faces : list (list nat)} {m0 : mesh2} (M : rmesh) (sf : option flag) (e : elem) (s : dofs).
Context (H : mesh_history pts faces m0 (rm M)) (GF : good_faces pts faces) (FI : forall p, sub_leaf (cells (rm M)) sf p -> filled (n_dofs D2 e) s p).
Notation m := (rm M).
Notation rec p := (cell_is_rectangle m p). Notation quad_p p := (cell_quad m p).
Lemma sv_phi p k x : in_unit x -> (k < n_dofs D2 e)%nat -> phi2 e k x = Ok (sv (rec p) (quad_p p) e V0 x k).
Proof. intros U L. destruct (value_total (rec p) e k x U L) as [z [Ez Ev]]. unfold sv. rewrite shape_on_value, Ev. exact Ez. Qed.
Lemma fe_poly v W p : represents2 e m sf s v W -> sub_leaf (cells m) sf p ->
  exists c, (length c <= S (degree e))%nat /\ Forall (fun r => (length r <= S (degree e))%nat) c /\ forall x, in_unit x -> W V0 p x == poly2 c x.
Proof.
  intros RW Lp. destruct (cell_dofs_list s p _ (FI p Lp)) as [ds [Ed _]].
  assert (T : forall k, (k < n_dofs D2 e)%nat -> exists g, tens (S (degree e)) (S (degree e)) g /\ forall x, phi2 e k x = Ok (g x)).
  { intros k L. destruct (phi2_spec e k L) as [c [d [f1 [g1 [h1 [f2 [g2 [h2 [ij [_ [Hc [Hd [V _ _ _ _ _ _ A B]]]]]]]]]]]]]. exists (fun x => f1 (fst x) * f2 (snd x)). split; [|exact V].
    assert (Dc : Nodal1Facts.cdeg (degree e) c) by (rewrite <- (nth_error_nth _ _ (0, 0, 0, 0) Hc); apply Nodal1Facts.coef_deg).
    assert (Dd : Nodal1Facts.cdeg (degree e) d) by (rewrite <- (nth_error_nth _ _ (0, 0, 0, 0) Hd); apply Nodal1Facts.coef_deg).
    assert (LL : forall q, (length (Nodal1Facts.clist (degree e) q) <= S (degree e))%nat) by (intros [[[a b] c'] d']; unfold Nodal1Facts.clist; apply firstn_le_length).
    eapply tens_ext; [|eapply tens_mono; [| |apply (tens_prod (Nodal1Facts.clist (degree e) c) (Nodal1Facts.clist (degree e) d))]; apply LL].
    intros z. cbn beta. rewrite (Nodal1Facts.clist_poly _ c _ Dc), (Nodal1Facts.clist_poly _ d _ Dd). destruct (A (fst z)) as [-> _]. destruct (B (snd z)) as [-> _]. reflexivity. }
  assert (G : exists g : nat -> pt -> Q, forall k, (k < n_dofs D2 e)%nat -> tens (S (degree e)) (S (degree e)) (g k) /\ forall x, phi2 e k x = Ok (g k x)).
  { exists (fun k x => match phi2 e k x with Ok y => y | _ => 0 end). intros k L. destruct (T k L) as [g [Tg Eg]]. split; [eapply tens_ext; [|exact Tg]; intros z; rewrite Eg; reflexivity|]. intros x. rewrite Eg. reflexivity. }
  destruct G as [g Hg]. destruct (tens_sum (S (degree e)) (S (degree e)) (n_dofs D2 e) (fun k x => v (nth k ds 0%nat) * g k x)) as [c [Lc [Rc Ec]]].
  { intros k L. apply tens_scale. apply Hg, L. }
  exists c. split; [exact Lc|]. split; [exact Rc|]. intros x Ux. rewrite <- Ec, <- (fe_value M sf e s H GF FI v W p ds V0 x RW Lp Ed Logic.I Ux).
  apply sum_ext. intros k L. pose proof (sv_phi p k x Ux L) as E1. rewrite (proj2 (Hg k L)) in E1. injection E1 as ->. reflexivity.
Qed.
(** the value at a node is the coefficient *)
Lemma node_coef v W p k d x : represents2 e m sf s v W -> sub_leaf (cells m) sf p -> dof_at s p k d -> nth_error (reference_nodes2 e) k = Some x -> W V0 p x == v d.
Proof.
  intros RW Lp Dk Ex. destruct (cell_dofs_list s p _ (FI p Lp)) as [ds [Ed [Eg [Ld _]]]]. destruct (Prop_Shape.C31_lagrange_2d e) as [LL LG]. destruct (LG k x Ex) as [Ux Lk].
  assert (Hk : (k < n_dofs D2 e)%nat) by (rewrite <- LL; apply nth_error_Some; congruence).
  rewrite <- (fe_value M sf e s H GF FI v W p ds V0 x RW Lp Ed Logic.I Ux). rewrite (sum_one _ k); [|exact Hk|].
  - destruct (Lk k Hk) as [y [Ey Vy]]. rewrite (sv_phi p k x Ux Hk) in Ey. injection Ey as ->. rewrite Nat.eqb_refl in Vy. rewrite Vy.
    destruct Dk as [l [El Nl]]. rewrite Eg in El. injection El as <-. rewrite nth_error_map in Nl. destruct (nth_error ds k) as [d'|] eqn:E; [|discriminate Nl]. cbn in Nl. injection Nl as ->.
    rewrite (nth_error_nth _ _ _ E). ring.
  - intros i Li Ne. destruct (Lk i Li) as [y [Ey Vy]]. rewrite (sv_phi p i x Ux Li) in Ey. injection Ey as ->. rewrite (proj2 (Nat.eqb_neq i k) Ne) in Vy. rewrite Vy. ring.
Qed.
(** differences *)
Lemma rep_minus v V u W : represents2 e m sf s v V -> represents2 e m sf s u W -> exists Z, represents2 e m sf s (fun d => v d - u d) Z /\
  forall der p x, derivative_ok der -> sub_leaf (cells m) sf p -> in_unit x -> Z der p x == V der p x - W der p x.
Proof.
  intros RV RW. destruct (proj1 (Prop_Problem2.C86_functions pts faces m0 m sf e s (fun d => v d - u d) H GF FI)) as [Z RZ]. exists Z. split; [exact RZ|].
  intros der p x D Lp Ux. destruct (cell_dofs_list s p _ (FI p Lp)) as [ds [Ed _]].
  rewrite <- (fe_value M sf e s H GF FI _ Z p ds der x RZ Lp Ed D Ux), <- (fe_value M sf e s H GF FI v V p ds der x RV Lp Ed D Ux), <- (fe_value M sf e s H GF FI u W p ds der x RW Lp Ed D Ux).
  rewrite !ProblemFacts.sum_fold. generalize (seq 0 (n_dofs D2 e)). induction l as [|k l IH]; cbn [map sumQ]; [ring|]. rewrite IH. ring.
Qed.
End FE.

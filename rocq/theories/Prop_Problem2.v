(** * C86: the forms of problems on quadrilateral meshes *)
From Coq Require Import List Arith Bool Lia QArith Lqa.
From Verif Require Import Tree Forest SpecForest Geom SpecGeom Dcel SpecDcel Quad SpecQuad Grid2 GridFacts Prop_Grid Prop_QuadMesh Prop_Balance Prop_Dof2 Dof2Hist
  Fem SpecFem ShapeFacts Dof SpecDof Dof2 SpecDof2 SpecHang Basis Solver SpecSolver SolverFacts Nodal NodalFacts Nodal1 Region Assemble SpecAssemble Kernel SpecKernel Problem2 Prop_Kernel SpecProblem2 ProblemFacts FormFacts Problem2Facts Problem2Main.
From Verif Require ProblemMain QuadGeomFacts Prop_DofVert SpecNodal Nodal1Facts Nodal1Interp Prop_Hang Dof2Hist.
Import ListNotations.
Open Scope Q_scope.

Lemma tot_f2 {X Y} (R : X -> Y -> Prop) (h : X -> Q) (h' : Y -> Q) l l' : Forall2 R l l' -> (forall x y, R x y -> h x == h' y) -> total h l == total h' l'.
Proof. intros F E. induction F as [|x y l l' H F IH]; unfold total in *; cbn; [reflexivity|]. rewrite (E x y H), IH. reflexivity. Qed.
Definition good_local2 (ds : list nat) (fm : form2) (loc : local) : Prop :=
  kind loc = form_dim2 fm /\ form_shape loc /\ match loc with Constant _ => True | Linear t _ => t = ds | Bilinear t u _ => t = ds /\ u = ds end.
Definition local_values2 e sf s M bases crule erule norm (p : path) (t : term2) (loc : local) : Prop :=
  (forall v u V W, represents2 e (rm M) sf s v V -> represents2 e (rm M) sf s u W -> bilinear_local v u loc == match f2_test (fst t), f2_trial (fst t) with
    | Some i, Some j => integral2 M crule erule norm (f2_dmu (fst t)) (f2_flag (fst t)) p (fun x => snd t p x * V (der_of2 bases i) p x * W (der_of2 bases j) p x) | _, _ => 0 end) /\
  (forall v V, represents2 e (rm M) sf s v V -> linear_local v loc == match f2_test (fst t), f2_trial (fst t) with
    | Some i, None => integral2 M crule erule norm (f2_dmu (fst t)) (f2_flag (fst t)) p (fun x => snd t p x * V (der_of2 bases i) p x) | _, _ => 0 end) /\
  constant_local loc == match f2_test (fst t) with None => integral2 M crule erule norm (f2_dmu (fst t)) (f2_flag (fst t)) p (fun x => snd t p x) | _ => 0 end.

Section Use.
Context {pts : list pt} {faces : list (list nat)} {m0 : mesh2} (M : rmesh) (sf : option flag) (e : elem) (s : dofs).
Context (H : mesh_history pts faces m0 (rm M)) (GF : good_faces pts faces) (FI : forall p, sub_leaf (cells (rm M)) sf p -> filled (n_dofs D2 e) s p).
Context (bases : list deriv) (DB : Forall derivative_ok bases) (crule : list pt * list Q) (erule : list Q * list Q) (norm : pt -> Q) (RO : rules_ok crule erule).
Lemma local_ok2 t p ds : term_ok2 e M sf s bases t -> sub_leaf (cells (rm M)) sf p -> cell_dofs1 s p = Some ds ->
  exists loc, local_form2 e M bases crule erule norm (fst t) p ds = Ok loc /\ good_local2 ds (fst t) loc /\ local_values2 e sf s M bases crule erule norm p t loc.
Proof.
  destruct t as [fm kf]. cbn [fst snd]. intros [[[fs Mk] [K1 KE]] [Ti Tj]] L Ed. cbn [fst snd] in *.
  assert (Ld : length ds = n_dofs D2 e). { destruct (cell_dofs_list s p _ (FI p L)) as [ds' [Ed' [_ [Ld _]]]]. congruence. }
  destruct (spots_ok M sf H GF crule erule norm RO fm p L) as [GS QS]. set (sps := form_spots M crule erule norm fm p) in *. rewrite Forall_forall in GS.
  destruct (map_res_total (region_of e M bases p ds) sps) as [rs ER]; [intros sp I; apply (region_total M sf e s H GF FI bases DB p ds sp L (GS sp I)) || apply (region_total M sf e H GF bases DB p ds sp L (GS sp I))|].
  pose proof (proj1 (mr_ok' _ _ _) ER) as FR.
  assert (RF : forall r, In r rs -> exists sp, In sp sps /\ region_of e M bases p ds sp = Ok r).
  { clear - FR. intros r I. induction FR as [|sp r' l l' H1 F IH]; [destruct I|]. destruct I as [->|I]; [exists sp; split; [left; reflexivity|exact H1]|]. destruct (IH I) as [sp' [I' E']]. exists sp'. split; [right; exact I'|exact E']. }
  assert (FACT := fun sp r (I : In sp sps) (E : region_of e M bases p ds sp = Ok r) => region_facts M sf e s H GF FI bases DB p ds sp r L Ed (GS sp I) E).
  assert (RK : Forall region_ok rs). { apply Forall_forall. intros r I. destruct (RF r I) as [sp [Is Es]]. apply (FACT sp r Is Es). }
  assert (KR : forall sp r, In sp sps -> region_of e M bases p ds sp = Ok r -> (exists v, wker (f2_kernel fm) r = Ok v /\ length v = length (r_w r)) /\ forall g, (g < length (fst sp))%nat -> kernel_value (f2_kernel fm) r g 0 == kf p (nth g (fst sp) (0, 0))).
  { intros sp r Is Es. destruct (FACT sp r Is Es) as [R1 [R2 [R3 [R4 _]]]]. destruct (KE p (fst sp) r R2) as [V [EV HV]]. destruct (kernel_region (f2_kernel fm) fs r V Mk R1 EV K1) as [W1 W2].
    split; [exact W1|]. intros g Lg. rewrite W2 by (rewrite R4; exact Lg). apply HV. exact Lg. }
  assert (WK : forall r, In r rs -> exists v, wker (f2_kernel fm) r = Ok v /\ length v = length (r_w r)) by (intros r I; destruct (RF r I) as [sp [Is Es]]; apply (KR sp r Is Es)).
  assert (TB : forall i, (i < length bases)%nat -> tabled rs i) by (intros i Li r I; destruct (RF r I) as [sp [Is Es]]; apply (FACT sp r Is Es); exact Li).
  assert (QD : forall fn h, (forall sp r g, In sp sps -> region_of e M bases p ds sp = Ok r -> (g < length (fst sp))%nat -> fn r g == h (nth g (fst sp) (0, 0))) ->
     quadrature rs fn == integral2 M crule erule norm (f2_dmu fm) (f2_flag fm) p h).
  { intros fn h Hf. rewrite <- QS. apply (quad_spots sps rs (fun sp r => region_of e M bases p ds sp = Ok r) fn h FR). intros sp r Is Es. destruct (FACT sp r Is Es) as [_ [_ [R3 _]]]. split; [exact R3|]. split; [apply (GS sp Is)|]. intros g Lg. apply Hf; assumption. }
  unfold local_form2. fold sps. rewrite ER. cbn [bind]. unfold good_local2, local_values2, form_dim2. cbn [fst snd].
  destruct (f2_test fm) as [i|] eqn:Et.
  - specialize (Ti i eq_refl). destruct (f2_trial fm) as [j|] eqn:Eu.
    + specialize (Tj j eq_refl). destruct (gen_bilinear (f2_kernel fm) fs Mk K1 rs RK WK ds i j (TB i Ti) (TB j Tj)) as [l [El HB]]. rewrite Ld in El, HB. rewrite El. cbn [bind]. eexists. split; [reflexivity|]. split; [|split; [|split]].
      * split; [reflexivity|]. split; [|auto]. cbn. rewrite Ld. apply ProblemMain.tab_shape.
      * intros v u V W Rv Ru. rewrite HB. apply QD. intros sp r g Is Es Lg. destruct (FACT sp r Is Es) as [_ [_ [_ [_ [_ RV]]]]].
        rewrite (proj2 (KR sp r Is Es) g Lg), (RV v V i g Rv Ti Lg), (RV u W j g Ru Tj Lg). reflexivity.
      * intros v V _. reflexivity.
      * reflexivity.
    + destruct (gen_linear (f2_kernel fm) fs Mk K1 rs RK WK ds i (TB i Ti)) as [l [El [Ll HB]]]. rewrite Ld in El, Ll, HB. rewrite El. cbn [bind]. eexists. split; [reflexivity|]. split; [|split; [|split]].
      * split; [reflexivity|]. split; [|auto]. cbn. rewrite map_length. congruence.
      * intros v u V W _ _. reflexivity.
      * intros v V Rv. rewrite HB. apply QD. intros sp r g Is Es Lg. destruct (FACT sp r Is Es) as [_ [_ [_ [_ [_ RV]]]]].
        rewrite (proj2 (KR sp r Is Es) g Lg), (RV v V i g Rv Ti Lg). reflexivity.
      * reflexivity.
  - destruct (gen_constant (f2_kernel fm) fs Mk K1 rs RK WK) as [l [El HB]]. rewrite El. cbn [bind]. eexists. split; [reflexivity|]. split; [|split; [|split]]; [split; [reflexivity|split; exact Logic.I]|intros; reflexivity|intros; reflexivity|].
    cbn [constant_local]. rewrite HB. apply QD. intros sp r g Is Es Lg. apply (proj2 (KR sp r Is Es) g Lg).
Qed.
End Use.

(** The local forms that assembly adds up, on any leaves of any mesh of quadrilaterals, are those
    of the finite element functions: the bilinear, linear and constant forms of the problem at
    two functions are the quadrature of kernel times test function times trial function (or
    their derivatives in the plane) over the labelled cells, sides and vertices. *)
Theorem C86_forms pts faces m0 M sf e s bases crule erule norm terms ps :
  mesh_history pts faces m0 (rm M) -> good_faces pts faces -> (forall p, sub_leaf (cells (rm M)) sf p -> filled (n_dofs D2 e) s p) ->
  Forall derivative_ok bases -> rules_ok crule erule -> Forall (term_ok2 e M sf s bases) terms -> (forall p, In p ps -> sub_leaf (cells (rm M)) sf p) ->
  exists cls, problem_cells2 e M s bases crule erule norm (map fst terms) ps = Ok cls /\
    problem (map (fun t => form_dim2 (fst t)) terms) cls /\ galerkin cls /\ (forall d, cell_dof cls d -> exists p k, In p ps /\ dof_at s p k d) /\
    (forall v u V W, represents2 e (rm M) sf s v V -> represents2 e (rm M) sf s u W -> over_cells (bilinear_local v u) cls == bilinear_value2 M crule erule norm bases terms ps V W) /\
    (forall v V, represents2 e (rm M) sf s v V -> over_cells (linear_local v) cls == linear_value2 M crule erule norm bases terms ps V) /\
    over_cells constant_local cls == constant_value2 M crule erule norm terms ps.
Proof.
  intros H GF FI DB RO TK PS.
  assert (C1 : forall p, sub_leaf (cells (rm M)) sf p -> exists ds ls, cell_locals2 e M s bases crule erule norm (map fst terms) p = Ok ls /\ (forall d, In d ds -> exists k, dof_at s p k d) /\
     Forall2 (fun t loc => good_local2 ds (fst t) loc /\ local_values2 e sf s M bases crule erule norm p t loc) terms ls).
  { intros p L. destruct (cell_dofs_list s p _ (FI p L)) as [ds [Ed [_ [_ HD]]]]. unfold cell_locals2. rewrite Ed. exists ds.
    assert (G : exists ls, map_res (fun fm => local_form2 e M bases crule erule norm fm p ds) (map fst terms) = Ok ls /\
      Forall2 (fun t loc => good_local2 ds (fst t) loc /\ local_values2 e sf s M bases crule erule norm p t loc) terms ls).
    { clear PS. induction TK as [|t terms Ht TK IH]; [exists []; split; [reflexivity|constructor]|]. destruct IH as [ls [E1 F1]].
      destruct (local_ok2 M sf e s H GF FI bases DB crule erule norm RO t p ds Ht L Ed) as [loc [El Hl]]. exists (loc :: ls). split; [|constructor; [exact Hl|exact F1]].
      cbn [map map_res]. rewrite El. cbn [bind]. rewrite E1. reflexivity. }
    destruct G as [ls [G1 G2]]. exists ls. split; [exact G1|]. split; [|exact G2]. intros d I. apply In_nth_error in I. destruct I as [k I]. exists k. apply HD. exact I. }
  assert (C2 : forall qs j, (forall p, In p qs -> sub_leaf (cells (rm M)) sf p) -> exists cls,
     map_res (fun ip => bind (cell_locals2 e M s bases crule erule norm (map fst terms) (snd ip)) (fun l => Ok (fst ip, l))) (combine (seq j (length qs)) qs) = Ok cls /\
     map fst cls = seq j (length qs) /\ Forall2 (fun p c => exists ds, (forall d, In d ds -> exists k, dof_at s p k d) /\ Forall2 (fun t loc => good_local2 ds (fst t) loc /\ local_values2 e sf s M bases crule erule norm p t loc) terms (snd c)) qs cls).
  { induction qs as [|p qs IH]; intros j Hq; [exists []; cbn; auto|]. destruct (C1 p (Hq p (or_introl eq_refl))) as [ds [ls [E1 H1]]].
    destruct (IH (S j)) as [cls [E2 [E3 E4]]]; [intros q I; apply Hq; right; exact I|]. exists ((j, ls) :: cls). cbn [length seq combine map_res snd fst]. rewrite E1. cbn [bind]. rewrite E2. split; [reflexivity|].
    cbn [map fst]. rewrite E3. split; [reflexivity|]. constructor; [exists ds; exact H1|exact E4]. }
  destruct (C2 ps 0%nat PS) as [cls [E [EF FC]]]. exists cls. split; [exact E|].
  assert (IC : forall c, In c cls -> exists p ds, In p ps /\ (forall d, In d ds -> exists k, dof_at s p k d) /\ Forall2 (fun t loc => good_local2 ds (fst t) loc) terms (snd c)).
  { intros c I. clear - FC I. induction FC as [|p c' qs cs [ds [H1 H2]] F IH]; [destruct I|]. destruct I as [->|I]; [|destruct (IH I) as [p' [ds' [A C]]]; exists p', ds'; split; [right; exact A|exact C]].
    exists p, ds. split; [left; reflexivity|]. split; [exact H1|]. clear - H2. induction H2 as [|t loc l l' [H _] F IH]; constructor; auto. }
  split; [|split; [|split; [|split; [|split]]]].
  - split; [rewrite EF; apply seq_NoDup|]. apply Forall_forall. intros c I. destruct (IC c I) as [p [ds [_ [_ F]]]]. split.
    + clear - F. induction F as [|t loc l l' [H _] F IH]; cbn; [reflexivity|]. rewrite H, IH. reflexivity.
    + clear - F. induction F as [|t loc l l' [_ [H _]] F IH]; constructor; auto.
  - apply Forall_forall. intros c I. destruct (IC c I) as [p [ds [_ [_ F]]]]. exists ds. clear - F. induction F as [|t loc l l' [_ [_ H]] F IH]; constructor; auto.
  - intros d [c [loc [I [Il Id]]]]. destruct (IC c I) as [p [ds [Ip [DL F]]]]. exists p.
    assert (Q : In d ds).
    { clear - F Il Id. induction F as [|t loc' l l' [_ [_ H]] F IH]; [destruct Il|]. destruct Il as [->|Il]; [|auto].
      destruct loc as [q|tt ll|tt uu mm]; cbn in *; [destruct Id|subst tt; exact Id|destruct H as [-> _]; exact Id]. }
    destruct (DL d Q) as [k Hk]. exists k. auto.
  - intros v u V W Rv Ru. unfold over_cells, bilinear_value2. symmetry. apply (tot_f2 _ _ _ _ _ FC). intros p c [ds [_ F]]. apply (tot_f2 _ _ _ _ _ F). intros t loc [_ [HH _]]. symmetry. apply HH; assumption.
  - intros v V Rv. unfold over_cells, linear_value2. symmetry. apply (tot_f2 _ _ _ _ _ FC). intros p c [ds [_ F]]. apply (tot_f2 _ _ _ _ _ F). intros t loc [_ [_ [HH _]]]. symmetry. apply HH; assumption.
  - unfold over_cells, constant_value2. symmetry. apply (tot_f2 _ _ _ _ _ FC). intros p c [ds [_ F]]. apply (tot_f2 _ _ _ _ _ F). intros t loc [_ [_ [_ HH]]]. symmetry. exact HH.
Qed.
Print Assumptions C86_forms.

(** every vector has such a function, and only one *)
Theorem C86_functions pts faces m0 m sf e s v : mesh_history pts faces m0 m -> good_faces pts faces -> (forall p, sub_leaf (cells m) sf p -> filled (n_dofs D2 e) s p) ->
  (exists V, represents2 e m sf s v V) /\
  forall V W, represents2 e m sf s v V -> represents2 e m sf s v W -> forall der p x, derivative_ok der -> sub_leaf (cells m) sf p -> in_unit x -> V der p x == W der p x.
Proof.
  intros H GF FI. split.
  - set (V := fun der p x => match cell_dofs1 s p with Some ds => sum (n_dofs D2 e) (fun k => v (nth k ds 0%nat) * sv (cell_is_rectangle m p) (cell_quad m p) e der x k) | None => 0 end).
    exists V. intros p q x L S U. pose proof (shape_quad p q S) as ->. destruct (shape_good H GF p _ S) as [C A]. destruct (cell_dofs_list s p _ (FI p L)) as [ds [Ed [Eg [Ld _]]]].
    destruct (comb_gradients (cell_is_rectangle m p) (cell_quad m p) e C A (fun k => v (nth k ds 0%nat)) x U) as [G1 G2]. unfold V. rewrite Ed. split; [|split; [exact G1|exact G2]].
    exists ds. split; [exact Eg|]. split; [exact Ld|]. exists (map (fun k => v (nth k ds 0%nat) * sv (cell_is_rectangle m p) (cell_quad m p) e V0 x k) (seq 0 (n_dofs D2 e))).
    split; [rewrite map_length, seq_length; reflexivity|]. split; [|rewrite sum_fold; reflexivity]. intros i y E.
    assert (Li : (i < n_dofs D2 e)%nat). { assert (Q : nth_error (map (fun k => v (nth k ds 0%nat) * sv (cell_is_rectangle m p) (cell_quad m p) e V0 x k) (seq 0 (n_dofs D2 e))) i <> None) by congruence. apply nth_error_Some in Q. rewrite map_length, seq_length in Q. exact Q. }
    apply (nth_error_nth _ _ 0) in E. rewrite nth_seq_map in E by exact Li. destruct (value_total (cell_is_rectangle m p) e i x U Li) as [z [Ez Ev]]. rewrite Ez. cbn [bind]. rewrite <- E. unfold sv. rewrite shape_on_value, Ev. reflexivity.
  - intros V W RV RW der p x D L U. destruct (cell_dofs_list s p _ (FI p L)) as [ds [Ed _]].
    pose (M := Region.mkR m 0%nat (fun _ _ => false) (fun _ _ => false)).
    assert (G : forall U', represents2 e m sf s v U' -> sum (n_dofs D2 e) (fun k => v (nth k ds 0%nat) * sv (cell_is_rectangle m p) (cell_quad m p) e der x k) == U' der p x)
      by (intros U' RU; exact (fe_value M sf e s H GF FI v U' p ds der x RU L Ed D U)).
    rewrite <- (G V RV). apply (G W RW).
Qed.
Print Assumptions C86_functions.

(** ** Kernels *)
(** Explicit(f=g), g a function of the plane, and Constant(data=c) *)
Definition explicit_map2 {K : Type} (r : list (K -> pt -> Q) * list K) : kmap pt deriv := KExplicit (length (fst r)) (explicit_eval r).
Definition constant_map2 (data : list Q) : kmap pt deriv := KExplicit (length data) (fun xs => Ok (constant_eval data xs)).
Definition plane_function (m : mesh2) (g : pt -> Q) (h : path -> pt -> Q) : Prop :=
  forall p q x, shape_is m p q -> in_unit x -> h p x == g (qmap q (fst x) (snd x)).
Theorem C86_maps e M sf s bases :
  (forall (K : Type) (g : K -> pt -> Q) (p0 : K) h, plane_function (rm M) (g p0) h -> map_is2 e M sf s bases (explicit_map2 ([g], [p0])) h) /\
  (forall c, map_is2 e M sf s bases (constant_map2 [c]) (fun _ _ => c)).
Proof.
  split.
  - intros K g p0 h PF. split; [split; [cbn; lia|cbn; intros x v E; injection E as <-; split; [apply map_length|apply Forall_forall; intros r I; apply in_map_iff in I; destruct I as [y [<- _]]; reflexivity]]|].
    split; [reflexivity|]. intros p refs r d [q [ds [L [S [Ed [U [Ex _]]]]]]]. cbn. eexists. split; [reflexivity|]. intros i Hi. unfold sample_at. rewrite Ex.
    rewrite (nth_map' _ _ i [] (0, 0)) by (rewrite map_length; exact Hi). rewrite (nth_map' _ refs i (0, 0) (0, 0)) by exact Hi. cbn [nth map]. symmetry. apply PF; [exact S|]. apply U, nth_In, Hi.
  - intros c. split; [split; [cbn; lia|cbn; intros x v E; injection E as <-; split; [apply map_length|apply Forall_forall; intros r I; apply in_map_iff in I; destruct I as [y [<- _]]; reflexivity]]|].
    split; [reflexivity|]. intros p refs r d [q [ds [L [S [Ed [U [Ex _]]]]]]]. cbn. eexists. split; [reflexivity|]. intros i Hi. unfold constant_eval, sample_at. rewrite Ex, map_map.
    rewrite (nth_map' _ refs i [] (0, 0)) by exact Hi. reflexivity.
Qed.
Print Assumptions C86_maps.
Lemma sizes_one2 {X D} (fs : list (kmap X D)) : Forall (fun m => map_samples m = 1%nat) fs -> sample_size fs = Ok 1%nat.
Proof.
  unfold sample_size. intros F. assert (G : forall l, Forall (fun m : kmap X D => map_samples m = 1%nat) l -> fold_res size_step l 1%nat = Ok 1%nat); [|apply G; exact F].
  induction l as [|m l IH]; intros H; [reflexivity|]. inversion H as [|? ? H1 H2]; subst. cbn. unfold size_step at 1. rewrite H1. cbn. apply IH. exact H2.
Qed.
(** Kernel(f=[f1, ..., fn], F=F): the function F(f1, ..., fn) *)
Theorem C86_kernel e M sf s bases fs hs F k : Forall2 (map_is2 e M sf s bases) fs hs -> make_kernel fs DNone (Some F) = Ok k ->
  (forall l l', Forall2 Qeq l l' -> F l == F l') -> kernel_is2 e M sf s bases k (fun p x => F (map (fun h => h p x) hs)).
Proof.
  intros FM E PF. assert (K1 : Forall keeps fs) by (clear - FM; induction FM as [|m h l l' [H _] FF IH]; constructor; auto).
  assert (K2 : Forall (fun m => map_samples m = 1%nat) fs) by (clear - FM; induction FM as [|m h l l' [_ [H _]] FF IH]; constructor; auto).
  assert (Mk : made fs k) by (split; [exact K1|exists DNone, (Some F); exact E]).
  unfold make_kernel in E. cbn [bind] in E. rewrite (sizes_one2 fs K2) in E. cbn [bind] in E. injection E as <-. split; [exists fs; exact Mk|]. split; [reflexivity|].
  intros p refs r Hr.
  assert (PP : forall q, Some (r_phi r) = Some q -> Forall (fun z => length (snd z) = length (r_x r)) q).
  { intros q Q. injection Q as <-. destruct Hr as [q [ds [_ [_ [_ [_ [Ex [Et _]]]]]]]]. destruct (tables_get2 M e bases _ _ _ Et) as [T _]. rewrite Ex, map_length. exact T. }
  assert (LX : length (r_x r) = length refs) by (destruct Hr as [q [ds [_ [_ [_ [_ [Ex _]]]]]]]; rewrite Ex; apply map_length).
  destruct (C80_eval fs _ (r_x r) (Some (r_phi r)) (Some (r_dofs r)) Mk PP) as [T1 _]. cbn [k_d k_n k_F] in T1.
  assert (G : exists vs, Forall2 (fun fd v => map_eval (fst fd) (snd fd) (r_x r) (Some (r_phi r)) (Some (r_dofs r)) = Ok v) (combine fs (map (fun _ => @None deriv) fs)) vs /\
     Forall2 (fun v (h : path -> pt -> Q) => forall g, (g < length refs)%nat -> sample_at v g 0 == h p (nth g refs (0, 0))) vs hs).
  { clear - FM Hr. induction FM as [|m h l l' [_ [_ H]] FF IH]; [exists []; split; constructor|]. destruct IH as [vs [A1 A2]]. destruct (H p refs r None Hr) as [v [Ev Hv]].
    exists (v :: vs). split; constructor; assumption. }
  destruct G as [vs [G1 G2]]. destruct (T1 vs G1) as [V [EV [_ HV]]]. exists V. split; [exact EV|]. intros g Hg. rewrite (HV g 0%nat) by lia. apply PF.
  clear - G2 Hg. induction G2 as [|v h l l' H FF IH]; cbn; constructor; auto.
Qed.
Print Assumptions C86_kernel.

(** ** Rectangular grids *)
Lemma grid_good nx ny (xa xb ya yb : Q) : xa < xb -> ya < yb -> good_faces (grid_points xa xb ya yb nx ny) (grid_faces nx ny).
Proof.
  intros Hx Hy fc If q Eq. destruct (in_grid_faces _ _ _ If) as [ix [iy [Lx [Ly Ef]]]].
  destruct (C25_faces nx ny ix iy xa xb ya yb Lx Ly) as (a & b & c & e & pa & pb & pc & pe & E & A1 & A2 & A3 & A4 & A5).
  rewrite grid_faces_nth in E by auto. rewrite Ef in Eq. injection E as E1 E2 E3 E4. unfold grid_face in Eq. cbv zeta in Eq. cbn [nth] in Eq.
  rewrite E1, E2, E3, E4, (nth_error_nth _ _ _ A1), (nth_error_nth _ _ _ A2), (nth_error_nth _ _ _ A3), (nth_error_nth _ _ _ A4) in Eq.
  assert (AL : aligned q).
  { rewrite Eq. destruct A5 as ([u1 v1] & [u2 v2] & [u3 v3] & [u4 v4] & A6). destruct (A6 Hx Hy) as [W1 [W2 _]]. cbn [fst snd] in *.
    unfold aligned. rewrite u1, u2, u3, u4, v1, v2, v3, v4. repeat split; auto; reflexivity. }
  split; [apply QuadGeomFacts.aligned_convex; exact AL|intros _; exact AL].
Qed.
(** A nodal function (its basis is number i of the problem): the finite element function, or the
    derivative of its basis.  [ev] evaluates at given points (not used in assembly). *)
Definition nodal_map2 (ev : option deriv -> list pt -> res table) (i : nat) (nd : nodal (list Q)) : kmap pt deriv := KNodal (n_samples (nd_data nd)) i ev (eval_phi nd).
Theorem C86_nodal pts faces m0 M sf e s bases L B ev i data v W :
  mesh_history pts faces m0 (rm M) -> good_faces pts faces -> (forall p, sub_leaf (cells (rm M)) sf p -> filled (n_dofs D2 e) s p) -> Forall derivative_ok bases ->
  NoDup L -> basis_init L = Ok B -> (forall p k d, sub_leaf (cells (rm M)) sf p -> dof_at s p k d -> In d L) ->
  (forall d xs t, ev d xs = Ok t -> rectangular (length xs) 1 t) ->
  SpecNodal.array_of (length L) 1 data -> SpecNodal.nodal_values L data 0 v -> (i < length bases)%nat -> represents2 e (rm M) sf s v W ->
  map_is2 e M sf s bases (nodal_map2 ev i (mkNodal B data)) (W (nth i bases V0)).
Proof.
  intros H GF FI DB ND EB HL EV [Ld Lr] NV Li Rp. assert (NE : L <> []) by (intros ->; discriminate EB).
  assert (NS : n_samples data = 1%nat).
  { unfold n_samples. destruct data as [|r0 data0]; [|apply Lr; left; reflexivity]. exfalso. apply NE. cbn in Ld. apply length_zero_iff_nil. auto. }
  assert (D2I : forall d, In d L -> exists j, basis_d2i B d = Ok (Some j) /\ nth_error L j = Some d).
  { intros d I. assert (X : forall d, In d L -> (d <= last L 0)%nat).
    { intros d' H'. destruct (le_lt_dec d' (last L 0%nat)) as [Hle|Hlt]; auto. pose proof (Prop_DofVert.C39_order L d' H' Hlt) as Z. rewrite EB in Z. discriminate Z. }
    destruct (Prop_DofVert.C39_index_maps L ND NE X) as [B' [EB' [_ [G _]]]]. rewrite EB in EB'. injection EB' as <-. destruct (G d I) as [j [E1 [_ E2]]]. exists j. split; [exact E1|].
    assert (SB : snd B = L). { clear - EB. unfold basis_init in EB. destruct L as [|a r]; [discriminate EB|]. destruct (fold_res _ _ _) as [[x y]|]; cbn [bind] in EB; [|discriminate EB]. injection EB as <-. reflexivity. }
    unfold basis_i2d in E2. rewrite SB in E2. destruct (nth_error L j); congruence. }
  split; [|split; [exact NS|]].
  { split; [change (0 < n_samples data)%nat; rewrite NS; lia|]. unfold nodal_map2. cbn [nd_data]. rewrite NS. split; [exact EV|]. intros p ds t E. rewrite <- NS. exact (eval_phi_rect (mkNodal B data) p ds t E). }
  intros p refs r d [q [ds [Lp [S [Ed [U [R2 [R3 R4]]]]]]]]. destruct (tables_get2 M e bases _ _ _ R3) as [_ TG]. destruct (TG i Li) as [t [Gt Ft]].
  destruct (cell_dofs_list s p _ (FI p Lp)) as [ds' [Ed' [_ [Lds Hk]]]]. assert (ds' = ds) by congruence. subst ds'. destruct (leaf_shape M sf H GF p Lp) as [_ [C A]].
  assert (DO := bases_ok bases DB i Li).
  assert (RW : forall g, (g < length refs)%nat -> nth g t [] = map (sv (cell_is_rectangle (rm M) p) (cell_quad (rm M) p) e (nth i bases V0) (nth g refs (0, 0))) (seq 0 (n_dofs D2 e))).
  { intros g Lg. pose proof (f2_nth' _ _ _ g (0, 0) [] Ft Lg) as Er. cbn beta in Er. pose proof (eq_trans (eq_sym (row_ok (cell_is_rectangle (rm M) p) (cell_quad (rm M) p) e C A _ _ DO (U _ (nth_In refs (0, 0) Lg)))) Er) as Er2.
    clear - Er2. injection Er2 as Er2. symmetry. exact Er2. }
  pose proof (Nodal1Interp.f2_len _ _ _ Ft) as LT.
  assert (LR : forall row, In row t -> length row = length ds).
  { intros row I. apply In_nth with (d := []) in I. destruct I as [g [Lg <-]]. rewrite RW by lia. rewrite map_length, seq_length. auto. }
  assert (HD : forall d, In d ds -> In d L) by (intros d0 I; apply In_nth_error in I; destruct I as [k I]; apply Hk in I; exact (HL p k d0 Lp I)).
  pose proof (eval_phi_rows (mkNodal B data) 1 ds t NS) as EP. cbn [nd_data] in EP.
  assert (HR : forall d, In d ds -> has_row (mkNodal B data) d).
  { intros d0 I. destruct (D2I d0 (HD d0 I)) as [j [E1 E2]]. exists j. split; [exact E1|]. cbn. rewrite Ld. apply nth_error_Some. congruence. }
  specialize (EP HR LR). eexists. split.
  - unfold nodal_map2. cbn [map_eval]. rewrite Gt. cbn [bind].
    assert (Q : get i (r_dofs r) = Ok ds).
    { rewrite R4. assert (Z : nth_error (map (fun _ : nat => ds) (seq 0 (length bases))) i = Some ds).
      { rewrite nth_error_map. destruct (nth_error (seq 0 (length bases)) i) eqn:Q; [reflexivity|]. apply nth_error_None in Q. rewrite seq_length in Q. lia. }
      pose proof (get_combine _ 0 i ds Z) as G. rewrite map_length, seq_length in G. cbn [Nat.add] in G.
      replace (map (fun i0 => (i0, ds)) (seq 0 (length bases))) with (combine (seq 0 (length bases)) (map (fun _ : nat => ds) (seq 0 (length bases)))); [exact G|].
      generalize (seq 0 (length bases)) as l. induction l as [|j l IH]; cbn; [reflexivity|]. rewrite IH. reflexivity. }
    rewrite Q. cbn [bind]. exact EP.
  - intros g Hg. unfold sample_at. rewrite (nth_map' _ t g [] []) by lia. cbn [seq map nth]. rewrite (RW g Hg).
    set (row := map (sv (cell_is_rectangle (rm M) p) (cell_quad (rm M) p) e (nth i bases V0) (nth g refs (0, 0))) (seq 0 (n_dofs D2 e))). assert (LRW : length row = n_dofs D2 e) by (unfold row; rewrite map_length, seq_length; reflexivity).
    eapply Qeq_trans; [exact (Nodal1Facts.sum_nth row ds (value_of (mkNodal B data) 0) (n_dofs D2 e) LRW Lds)|].
    rewrite <- (fe_value M sf e s H GF FI v W p ds _ _ Rp Lp Ed DO (U _ (nth_In refs (0, 0) Hg))), <- sum_fold. apply sum_ext. intros k Lk. unfold row. rewrite nth_seq_map by exact Lk.
    assert (Ik : In (nth k ds 0%nat) L) by (apply HD, nth_In; lia). destruct (D2I _ Ik) as [j [E1 E2]]. unfold value_of. cbn [nd_basis nd_data]. rewrite E1.
    destruct (nth_error data j) as [rw|] eqn:Erw; [|apply nth_error_None in Erw; assert (j < length L)%nat by (apply nth_error_Some; congruence); lia].
    destruct (NV j _ rw E2 Erw) as [y [Ey Evy]]. rewrite (nth_error_nth data j [] Erw), (nth_error_nth rw 0 0 Ey), Evy. ring.
Qed.
Print Assumptions C86_nodal.

(** ** Example: the grid of 2 x 1 unit squares, the right one refined: mass form over the cells,
    linear form over the labelled sides (all of them) *)
Definition qx_k : kernel pt deriv := mkKernel [constant_map2 [1]] [None] (fun v => nth 0 v 0) 1%nat.
Definition qx_terms : list (form2 * (path -> pt -> Q)) :=
  [(mkForm2 qx_k (Some 0%nat) (Some 0%nat) Dx2 None, fun _ _ => 1); (mkForm2 qx_k (Some 0%nat) None Ds2 (Some 7%nat), fun _ _ => 1)].
Definition qx_crule : list pt * list Q := ([(1 # 2, 1 # 2)], [1]).
Definition qx_erule : list Q * list Q := ([0; 1 # 2; 1], [1 # 6; 2 # 3; 1 # 6]).
Definition qx_norm (v : pt) : Q := Qabs.Qabs (fst v) + Qabs.Qabs (snd v).
Definition qx_M (m : mesh2) : rmesh := Region.mkR m 0%nat (fun _ g => (g =? 7)%nat) (fun _ _ => false).
Definition qx_ps : list path := [[0]; [1; 0]; [1; 1]; [1; 2]; [1; 3]]%nat.
Definition leafb (m : mesh2) (p : path) : bool :=
  match fget (cells m) p with Some n => forallb (fun o => match o with Some _ => false | None => true end) (n_slots n) | None => false end.
Lemma leafb_ok m p : leafb m p = true -> sub_leaf (cells m) None p.
Proof.
  unfold leafb. destruct (fget (cells m) p) as [n|] eqn:E; [|discriminate]. intros F. exists n. split; [exact E|]. split; [exact Logic.I|]. intros i k Ek. rewrite forallb_forall in F.
  apply nth_error_In in Ek. specialize (F _ Ek). discriminate F.
Qed.
Lemma qx_ok M sf s e : Forall (term_ok2 e M sf s [V0]) qx_terms.
Proof.
  assert (K : kernel_is2 e M sf s [V0] qx_k (fun _ _ => 1)).
  { apply (C86_kernel e M sf s [V0] [constant_map2 [1]] [fun _ _ => 1] (fun v => nth 0 v 0) qx_k); [constructor; [apply C86_maps|constructor]|reflexivity|]. intros l l' F. destruct F; [reflexivity|assumption]. }
  constructor; [|constructor; [|constructor]]; (split; [exact K|]); split; intros i E; cbn in E; try discriminate E; injection E as <-; cbn; lia.
Qed.
Definition qx_check (m : mesh2) (s0 : dofs) : bool :=
  match Dof2.distribute2 Q1 m None s0 with Err _ => false | Ok s =>
  match problem_cells2 Q1 (qx_M m) s [V0] qx_crule qx_erule qx_norm (map fst qx_terms) qx_ps with
  | Ok cls => forallb (leafb m) qx_ps && (length cls =? 5)%nat && Qeq_bool (over_cells (bilinear_local (fun _ => 1) (fun _ => 1)) cls) 2 && Qeq_bool (over_cells (linear_local (fun _ => 1)) cls) 12
  | Err _ => false end end.
Lemma qx_run : check2 Q1 (grid_run2 2 1 2 1 [CSplit None [1%nat]] Q1 []) qx_check = true.
Proof. vm_cast_no_check (eq_refl true). Qed.
Example C86_case : exists m0 m s cls W,
  mesh_history (grid_points 0 2 0 1 2 1) (grid_faces 2 1) m0 m /\ good_faces (grid_points 0 2 0 1 2 1) (grid_faces 2 1) /\
  (forall p, sub_leaf (cells m) None p -> filled (n_dofs D2 Q1) s p) /\ represents2 Q1 m None s (fun _ => 1) W /\ (forall p, In p qx_ps -> sub_leaf (cells m) None p) /\
  problem_cells2 Q1 (qx_M m) s [V0] qx_crule qx_erule qx_norm (map fst qx_terms) qx_ps = Ok cls /\ length cls = 5%nat /\
  bilinear_value2 (qx_M m) qx_crule qx_erule qx_norm [V0] qx_terms qx_ps W W == 2 /\ linear_value2 (qx_M m) qx_crule qx_erule qx_norm [V0] qx_terms qx_ps W == 12.
Proof.
  destruct (check2_ok _ _ _ qx_run) as [m [s0 [R E]]]. destruct (grid_run2_history 2 1 2 1 _ Q1 _ m s0 eq_refl eq_refl R) as [_ Hi]. specialize (Hi eq_refl).
  unfold qx_check in E. destruct (Dof2.distribute2 Q1 m None s0) as [s|] eqn:ED; [|discriminate E]. destruct (problem_cells2 _ _ _ _ _ _ _ _ _) as [cls|] eqn:EP; [|discriminate E].
  apply andb_true_iff in E. destruct E as [E E4]. apply andb_true_iff in E. destruct E as [E E3]. apply andb_true_iff in E. destruct E as [E1 E2].
  apply Nat.eqb_eq in E2. apply Qeq_bool_iff in E3, E4. rewrite forallb_forall in E1.
  assert (S : Prop_Hang.situation (grid_points 0 2 0 1 2 1) (grid_faces 2 1) Q1 m s None (fun l => l)) by (apply (Prop_Hang.C51_situation _ _ Q1 m s0 s); auto).
  destruct S as [DH [_ [_ [_ [F _]]]]].
  destruct (history_good relabel _ _ _ m s relabel_edit DH) as [[m0 MH] _].
  assert (FI : forall p, sub_leaf (cells m) None p -> filled (n_dofs D2 Q1) s p) by (intros p L; apply F; destruct L as [n [En _]]; exists n; split; [exact En|exact Logic.I]).
  assert (GF := grid_good 2 1 0 2 0 1 eq_refl eq_refl). destruct (C86_functions _ _ _ m None Q1 s (fun _ => 1) MH GF FI) as [[W RW] _].
  assert (PS : forall p, In p qx_ps -> sub_leaf (cells m) None p) by (intros p I; apply leafb_ok, E1, I).
  exists m0, m, s, cls, W. do 7 (split; [assumption|]).
  assert (RO : rules_ok qx_crule qx_erule).
  { split; (split; [reflexivity|]); intros x I; cbn in I; [destruct I as [<-|[]]; split; cbn; lra|destruct I as [<-|[<-|[<-|[]]]]; split; lra]. }
  assert (DB : Forall derivative_ok [V0]) by (constructor; [exact Logic.I|constructor]).
  destruct (C86_forms _ _ m0 (qx_M m) None Q1 s [V0] qx_crule qx_erule qx_norm qx_terms qx_ps MH GF FI DB RO (qx_ok _ _ _ _) PS) as [cls' [EC [_ [_ [_ [B [L _]]]]]]].
  assert (cls' = cls) by (clear - EC EP; congruence). subst cls'. split; [rewrite <- (B _ _ W W RW RW); exact E3|rewrite <- (L _ W RW); exact E4].
Qed.

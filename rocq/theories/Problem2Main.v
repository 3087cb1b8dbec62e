(** * The local forms of a problem on a quadrilateral mesh are the quadrature of its terms (facts for C86) *)
From Coq Require Import List Arith Bool Lia QArith Lqa.
From Verif Require Import Tree Forest SpecForest Geom SpecGeom Dcel SpecDcel Quad SpecQuad Prop_QuadMesh
  Fem SpecFem ShapeFacts Dof SpecDof Dof2 SpecDof2 SpecHang Basis Solver SolverFacts Nodal NodalFacts Nodal1 Region Assemble SpecAssemble Kernel SpecKernel Problem2 Prop_Kernel SpecProblem2 ProblemFacts FormFacts Problem2Facts.
From Verif Require ProblemMain.
Import ListNotations.
Open Scope Q_scope.

Lemma tot_ext {X} (h h' : X -> Q) l : (forall x, In x l -> h x == h' x) -> total h l == total h' l.
Proof. apply qsum_ext. Qed.
Lemma tot_filter {X Y} (b : X -> bool) (G : X -> Y) (F : Y -> Q) l : total F (map G (filter b l)) == total (fun x => if b x then F (G x) else 0) l.
Proof.
  induction l as [|x l IH]; [reflexivity|]. cbn [filter]. unfold total in *. cbn [map fold_right]. destruct (b x); cbn [map fold_right]; rewrite IH; [reflexivity|ring].
Qed.
Lemma tot_combine {A B C D} (f : A -> C) (g : B -> D) (F : C * D -> Q) l l' : total F (combine (map f l) (map g l')) == total (fun ab => F (f (fst ab), g (snd ab))) (combine l l').
Proof. revert l'. induction l as [|a l IH]; intros [|b l']; try reflexivity. unfold total in *. cbn [map combine fold_right fst snd]. rewrite IH. reflexivity. Qed.
Lemma tot_weights {A} (g : A * Q -> Q) (F : A * Q -> Q) l : forall l' : list Q, length l = length l' -> total F (combine l (map g (combine l l'))) == total (fun aw => F (fst aw, g aw)) (combine l l').
Proof. induction l as [|a l IH]; intros [|b l'] L; try reflexivity; try discriminate L. unfold total in *. cbn [map combine fold_right fst snd]. rewrite IH by (cbn in L; lia). reflexivity. Qed.

Section Use.
Context {pts : list pt} {faces : list (list nat)} {m0 : mesh2} (M : rmesh) (sf : option flag) (e : elem) (s : dofs).
Context (H : mesh_history pts faces m0 (rm M)) (GF : good_faces pts faces) (FI : forall p, sub_leaf (cells (rm M)) sf p -> filled (n_dofs D2 e) s p).
Context (bases : list deriv) (DB : Forall derivative_ok bases) (crule : list pt * list Q) (erule : list Q * list Q) (norm : pt -> Q) (RO : rules_ok crule erule).
Notation m := (rm M).
Notation rec p := (cell_is_rectangle m p). Notation quad_p p := (cell_quad m p).
Lemma leaf_cell p : sub_leaf (cells m) sf p -> is_cell m p.
Proof. intros [c [E _]]. exists c. exact E. Qed.
Lemma leaf_shape p : sub_leaf (cells m) sf p -> shape_is m p (quad_p p) /\ convex (quad_p p) /\ (rec p = true -> aligned (quad_p p)).
Proof.
  intros L. destruct (shape_total H p (leaf_cell p L)) as [q S]. pose proof (shape_quad p q S) as E. destruct (shape_good H GF p q S) as [A B]. subst q. auto.
Qed.
Lemma bases_ok i : (i < length bases)%nat -> derivative_ok (nth i bases V0).
Proof. intros L. rewrite Forall_forall in DB. apply DB, nth_In, L. Qed.
Lemma tables_ok2 p refs : sub_leaf (cells m) sf p -> (forall x, In x refs -> in_unit x) -> exists phi, shape_tables2 e M bases p refs = Ok phi.
Proof.
  intros L R. destruct (leaf_shape p L) as [_ [C A]]. unfold shape_tables2. destruct (map_res_total (fun der => map_res (shape_row2 e (rec p) (quad_p p) der) refs) bases) as [ts E].
  - intros der I. apply map_res_total. intros x Ix. rewrite Forall_forall in DB. eexists. apply (row_ok (rec p) (quad_p p) e C A der x (DB der I) (R x Ix)).
  - rewrite E. cbn. eauto.
Qed.
Lemma tables_get2 p refs phi : shape_tables2 e M bases p refs = Ok phi ->
  Forall (fun q => length (snd q) = length refs) phi /\
  forall i, (i < length bases)%nat -> exists t, get i phi = Ok t /\ Forall2 (fun x row => shape_row2 e (rec p) (quad_p p) (nth i bases V0) x = Ok row) refs t.
Proof.
  unfold shape_tables2. destruct (map_res _ bases) as [ts|] eqn:E; cbn [bind]; [|discriminate]. intros Q. injection Q as <-. apply mr_ok' in E.
  pose proof (Nodal1Interp.f2_len _ _ _ E) as LT. split.
  - apply Forall_forall. intros [i t] I. apply in_combine_r in I. cbn. clear - E I. induction E as [|der t0 l l' HH F IH]; [destruct I|]. destruct I as [->|I]; [|auto].
    apply mr_ok' in HH. apply Nodal1Interp.f2_len in HH. congruence.
  - intros i L. destruct (nth_error bases i) as [der|] eqn:EB; [|apply nth_error_None in EB; lia]. destruct (f2_nth _ _ _ i der E EB) as [t [Et Ht]].
    exists t. rewrite LT. split; [exact (get_combine ts 0 i t Et)|]. rewrite (nth_error_nth bases i V0 EB). apply mr_ok'. exact Ht.
Qed.
(** a finite element function in a cell *)
Lemma fe_value v V p ds der x : represents2 e m sf s v V -> sub_leaf (cells m) sf p -> cell_dofs1 s p = Some ds -> derivative_ok der -> in_unit x ->
  sum (n_dofs D2 e) (fun k => v (nth k ds 0%nat) * sv (rec p) (quad_p p) e der x k) == V der p x.
Proof.
  intros R L Ed D U. destruct (leaf_shape p L) as [S [C A]].
  assert (W0 : forall y, in_unit y -> sum (n_dofs D2 e) (fun k => v (nth k ds 0%nat) * sv (rec p) (quad_p p) e V0 y k) == V V0 p y).
  { intros y Uy. destruct (R p _ y L S Uy) as [[ds' [Eg [Ld SM]]] _]. destruct (cell_dofs_list s p _ (FI p L)) as [ds2 [Ed2 [Eg2 _]]].
    assert (ds2 = ds) by congruence. subst ds2. assert (Q : ds' = ds).
    { rewrite Eg in Eg2. injection Eg2 as Q. clear - Q. revert ds Q. induction ds' as [|d l IH]; intros [|d' l'] Q; try discriminate Q; [reflexivity|]. injection Q as -> Q. rewrite (IH _ Q). reflexivity. }
    subst ds'. symmetry. apply (sums_to_sum _ _ _ _ SM). intros k Lk. destruct (value_total (rec p) e k y Uy Lk) as [z [Ez Ev]]. rewrite Ez. cbn [bind]. unfold sv. rewrite shape_on_value, Ev. reflexivity. }
  apply (comb_value (rec p) (quad_p p) e C A (fun k => v (nth k ds 0%nat)) (fun d y => V d p y) W0); try assumption.
  - intros y Uy. apply (R p _ y L S Uy).
  - intros y i Uy Hi. apply (R p _ y L S Uy). exact Hi.
Qed.
(** regions *)
Definition good_spot (sp : spot) : Prop := length (fst sp) = length (snd sp) /\ forall x, In x (fst sp) -> in_unit x.
Lemma region_total p ds sp : sub_leaf (cells m) sf p -> good_spot sp -> exists r, region_of e M bases p ds sp = Ok r.
Proof. intros L [_ G]. unfold region_of. destruct (tables_ok2 p (fst sp) L G) as [phi E]. rewrite E. cbn [bind]. eauto. Qed.
Lemma region_facts p ds sp r : sub_leaf (cells m) sf p -> cell_dofs1 s p = Some ds -> good_spot sp -> region_of e M bases p ds sp = Ok r ->
  region_ok r /\ region_at2 e M sf s bases p (fst sp) r /\ r_w r = snd sp /\ length (r_x r) = length (fst sp) /\
  (forall i, (i < length bases)%nat -> exists t, get i (r_phi r) = Ok t /\ length t = length (r_w r)) /\
  forall v V i g, represents2 e m sf s v V -> (i < length bases)%nat -> (g < length (fst sp))%nat ->
    sum (n_dofs D2 e) (fun k => shape_value i r g k * v (nth k ds 0%nat)) == V (nth i bases V0) p (nth g (fst sp) (0, 0)).
Proof.
  intros L Ed [GL GU] E. unfold region_of in E. destruct (shape_tables2 e M bases p (fst sp)) as [phi|] eqn:ET; cbn [bind] in E; [|discriminate E]. injection E as <-. cbn [r_x r_w r_phi].
  destruct (tables_get2 p (fst sp) phi ET) as [TF TG]. destruct (leaf_shape p L) as [S [C A]]. rewrite map_length. split; [|split; [|split; [|split; [|split]]]].
  - split; cbn [r_x r_w r_phi]; rewrite map_length; [symmetry; exact GL|exact TF].
  - exists (quad_p p), ds. cbn [r_x r_phi r_dofs]. auto 10.
  - reflexivity.
  - reflexivity.
  - intros i Li. destruct (TG i Li) as [t [Gt Ft]]. exists t. split; [exact Gt|]. rewrite <- (Nodal1Interp.f2_len _ _ _ Ft). exact GL.
  - intros v V i g R Li Lg. destruct (TG i Li) as [t [Gt Ft]]. pose proof (f2_nth' _ _ _ g (0, 0) [] Ft Lg) as Er. cbn beta in Er.
    assert (U : in_unit (nth g (fst sp) (0, 0))) by (apply GU, nth_In, Lg). pose proof (eq_trans (eq_sym (row_ok (rec p) (quad_p p) e C A _ _ (bases_ok i Li) U)) Er) as Er2. clear Er. injection Er2 as Er.
    rewrite <- (fe_value v V p ds _ _ R L Ed (bases_ok i Li) U). apply sum_ext. intros k Lk. unfold shape_value. cbn [r_phi]. rewrite Gt, <- Er, nth_seq_map by exact Lk. ring.
Qed.
Lemma quad_spots (sps : list spot) (rs : list (region pt)) (Rel : spot -> region pt -> Prop) fn h :
  Forall2 Rel sps rs -> (forall sp r, In sp sps -> Rel sp r -> r_w r = snd sp /\ length (fst sp) = length (snd sp) /\ forall g, (g < length (fst sp))%nat -> fn r g == h (nth g (fst sp) (0, 0))) ->
  quadrature rs fn == total (fun sp => total (fun xw => snd xw * h (fst xw)) (combine (fst sp) (snd sp))) sps.
Proof.
  intros F. induction F as [|sp r sps rs H1 F IH]; intros G; [reflexivity|]. rewrite quadrature_cons. rewrite IH by (intros sp' r' I; apply G; right; exact I). unfold total at 2. cbn [map fold_right]. apply Qplus_comp; [|reflexivity].
  destruct (G sp r (or_introl eq_refl) H1) as [EW [EL EF]]. rewrite EW. unfold total. rewrite (map_as_seq (fun xw => snd xw * h (fst xw)) (combine (fst sp) (snd sp)) ((0, 0), 0)). rewrite combine_length, EL, Nat.min_id.
  apply qsum_ext. intros g I. apply in_seq in I. rewrite (EF g) by lia. rewrite combine_nth' by lia. reflexivity.
Qed.
Lemma side_unit k r : (k < 4)%nat -> 0 <= r <= 1 -> in_unit (ref_edge k r).
Proof. intros L R. destruct k as [|[|[|[|k]]]]; [| | | |lia]; unfold ref_edge, ref_vertex, in_unit; cbn; split; lra. Qed.
Lemma vertex_unit k : in_unit (ref_vertex k).
Proof. destruct k as [|[|[|[|k]]]]; unfold ref_vertex, in_unit; cbn; split; try lra. all: destruct k; cbn; lra. Qed.
Lemma spots_ok fm p : sub_leaf (cells m) sf p -> Forall good_spot (form_spots M crule erule norm fm p) /\
  forall h, total (fun sp => total (fun xw => snd xw * h (fst xw)) (combine (fst sp) (snd sp))) (form_spots M crule erule norm fm p) == integral2 M crule erule norm (f2_dmu fm) (f2_flag fm) p h.
Proof.
  intros L. destruct (leaf_shape p L) as [S _]. destruct S as [c [v0 [v1 [v2 [v3 [E [EC EQ]]]]]]]. destruct RO as [[RL RU] [SL SU]].
  destruct (C28_cells pts faces m0 m p c H E) as [L4 [_ [_ SIDE]]]. unfold form_spots, integral2. rewrite E, EC.
  assert (ES : sides_of m p = n_data c) by (unfold sides_of; rewrite E; reflexivity). assert (EV : vertices_of m p = cell_vertices (hp m) (n_data c)) by (unfold vertices_of; rewrite ES; reflexivity).
  destruct (f2_dmu fm).
  - change (ent_marked M (f2_flag fm) (Cel p)) with (has2 (f2_flag fm) (marked_at (cells m) p)). destruct (has2 (f2_flag fm) (marked_at (cells m) p)).
    + split.
      * constructor; [|constructor]. split; cbn [fst snd cell_spot]; [rewrite map_length, combine_length, RL, Nat.min_id; reflexivity|exact RU].
      * intros h. unfold total at 1. cbn [map fold_right]. rewrite Qplus_0_r. unfold cell_spot. cbn [fst snd]. rewrite EQ. rewrite tot_weights by exact RL. unfold over_square. cbn [fst snd]. reflexivity.
    + split; [constructor|]. intros h. reflexivity.
  - rewrite ES. split.
    + apply Forall_forall. intros sp I. apply in_map_iff in I. destruct I as [[hh k] [<- I]]. apply filter_In in I. destruct I as [I _]. apply in_combine_r in I. apply in_seq in I. cbn [fst snd]. split; cbn [fst snd edge_spot]; [rewrite !map_length; exact SL|].
      intros x Ix. apply in_map_iff in Ix. destruct Ix as [r [<- Ir]]. apply side_unit; [lia|]. apply SU. exact Ir.
    + intros h. rewrite tot_filter. destruct (n_data c) as [|h0 [|h1 [|h2 [|h3 [|]]]]] eqn:EN; try discriminate L4. cbn [seq combine]. unfold total at 1. cbn [map fold_right fst snd]. unfold total at 5. cbn [map fold_right nth].
      change (ent_marked M (f2_flag fm) (Hed h0)) with (has2 (f2_flag fm) (hlab M h0)). change (ent_marked M (f2_flag fm) (Hed h1)) with (has2 (f2_flag fm) (hlab M h1)).
      change (ent_marked M (f2_flag fm) (Hed h2)) with (has2 (f2_flag fm) (hlab M h2)). change (ent_marked M (f2_flag fm) (Hed h3)) with (has2 (f2_flag fm) (hlab M h3)).
      assert (HD : forall k hk hn, nth_error [h0; h1; h2; h3] k = Some hk -> nth_error [h0; h1; h2; h3] ((k + 1) mod 4) = Some hn -> hhead (he (hp m) hk) = hbase (he (hp m) hn)).
      { intros k hk hn Hk Hn. destruct (SIDE k hk) as [_ [n [pr [I1 [_ [I2 _]]]]]]; [exists c; rewrite EN; auto|]. destruct I1 as [c' [E' I1]]. rewrite E in E'. injection E' as <-. rewrite EN in I1. rewrite Hn in I1. injection I1 as <-. exact I2. }
      unfold coords, cell_vertices in EC. rewrite EN in EC. cbn [map] in EC. injection EC as C0 C1 C2 C3.
      assert (SPT : forall k hk hn a b, nth_error [h0; h1; h2; h3] k = Some hk -> nth_error [h0; h1; h2; h3] ((k + 1) mod 4) = Some hn -> vx (hp m) (hbase (he (hp m) hk)) = a -> vx (hp m) (hbase (he (hp m) hn)) = b ->
        total (fun xw => snd xw * h (fst xw)) (combine (fst (edge_spot M erule norm hk k)) (snd (edge_spot M erule norm hk k))) == over_side erule norm a b k h).
      { intros k hk hn a b Hk Hn Ea Eb. unfold edge_spot. cbn [fst snd]. rewrite (HD k hk hn Hk Hn), Ea, Eb. rewrite tot_combine. unfold over_side. cbn [fst snd]. reflexivity. }
      pose proof (SPT 0%nat h0 h1 v0 v1 eq_refl eq_refl C0 C1) as S0. pose proof (SPT 1%nat h1 h2 v1 v2 eq_refl eq_refl C1 C2) as S1. pose proof (SPT 2%nat h2 h3 v2 v3 eq_refl eq_refl C2 C3) as S2. pose proof (SPT 3%nat h3 h0 v3 v0 eq_refl eq_refl C3 C0) as S3.
      cbn [Nat.add Nat.modulo Nat.divmod Nat.sub fst snd nth].
      destruct (has2 (f2_flag fm) (hlab M h0)), (has2 (f2_flag fm) (hlab M h1)), (has2 (f2_flag fm) (hlab M h2)), (has2 (f2_flag fm) (hlab M h3)); rewrite ?S0, ?S1, ?S2, ?S3; reflexivity.
  - rewrite EV. split.
    + apply Forall_forall. intros sp I. apply in_map_iff in I. destruct I as [vk [<- _]]. split; [reflexivity|]. cbn. intros x [<-|[]]. apply vertex_unit.
    + intros h. rewrite tot_filter. assert (LV : length (cell_vertices (hp m) (n_data c)) = 4%nat) by (unfold cell_vertices; rewrite map_length; exact L4).
      destruct (cell_vertices (hp m) (n_data c)) as [|w0 [|w1 [|w2 [|w3 [|]]]]] eqn:EN; try discriminate LV. cbn [seq combine]. unfold total at 1. cbn [map fold_right fst snd]. unfold total. cbn [map fold_right nth vertex_spot fst snd combine].
      change (ent_marked M (f2_flag fm) (Vtx w0)) with (has2 (f2_flag fm) (vlab M w0)). change (ent_marked M (f2_flag fm) (Vtx w1)) with (has2 (f2_flag fm) (vlab M w1)).
      change (ent_marked M (f2_flag fm) (Vtx w2)) with (has2 (f2_flag fm) (vlab M w2)). change (ent_marked M (f2_flag fm) (Vtx w3)) with (has2 (f2_flag fm) (vlab M w3)).
      change (ref_vertex 0) with (corner 0). change (ref_vertex 1) with (corner 1). change (ref_vertex 2) with (corner 2). change (ref_vertex 3) with (corner 3).
      destruct (has2 (f2_flag fm) (vlab M w0)), (has2 (f2_flag fm) (vlab M w1)), (has2 (f2_flag fm) (vlab M w2)), (has2 (f2_flag fm) (vlab M w3)); ring.
Qed.
End Use.

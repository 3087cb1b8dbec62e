(** * C89: evaluation of finite element functions on quadrilateral meshes *)
From Coq Require Import List Arith Bool Lia Permutation QArith Lqa.
From Verif Require Import Tree Forest SpecForest Geom SpecGeom QuadGeomFacts Dcel SpecDcel Quad SpecQuad TreeFacts ForestFacts QuadFacts QuadSplit QuadInv QuadNb DcelFacts QuadInit QuadUniq QuadStart QuadCoords QuadHist Prop_QuadMesh
  Fem SpecFem ShapeFacts Dof SpecDof DofFacts Dof2 SpecDof2 Dof2Hist Prop_Dof2 Prop_Balance SpecHang Prop_Hang Basis Solver SolverFacts Nodal NodalFacts SpecNodal Nodal1 Problem2 SpecProblem2 Problem2Facts Problem2Main NodalQ SpecNodalQ NodalQFacts.
From Verif Require Prop_Problem2 AssembleFacts Region BinGen Nodal1Facts Prop_DofVert.
Import ListNotations.
Open Scope Q_scope.

Lemma sumQ_combine (v : nat -> Q) : forall n (g : nat -> Q) ds, length ds = n ->
  sumQ (map (fun cd => fst cd * v (snd cd)) (combine (map g (seq 0 n)) ds)) == sum n (fun k => v (nth k ds 0%nat) * g k).
Proof.
  assert (G : forall ds (g : nat -> Q) j, sumQ (map (fun cd => fst cd * v (snd cd)) (combine (map g (seq j (length ds))) ds)) == sum (length ds) (fun k => v (nth k ds 0%nat) * g (j + k)%nat)).
  { induction ds as [|d ds IH]; intros g j; [reflexivity|]. cbn [length]. rewrite AssembleFacts.sum_shift. cbn [seq map combine sumQ fst snd nth]. rewrite IH. rewrite Nat.add_0_r.
    apply Qplus_comp; [ring|]. apply sum_ext. intros k _. replace (S j + k)%nat with (j + S k)%nat by lia. reflexivity. }
  intros n g ds <-. apply (G ds g 0%nat).
Qed.

Section Use.
Context {pts : list pt} {faces : list (list nat)} {e : elem} {m : mesh2} {sf : option flag} {s : dofs} {L : list nat} {B : bmaps}.
Hypothesis U : in_use2 pts faces e m sf s L B.
Lemma u_mesh : exists m0, mesh_history pts faces m0 m.
Proof. destruct (u2_hist _ _ _ _ _ _ _ _ U) as [s0 [H _]]. apply (history_good edit pts faces e m s0 (fun _ _ x => x) H). Qed.
Lemma u_filled p : in_sub (cells m) sf p -> filled (n_dofs D2 e) s p /\ forall k j d, dof_at s p k d -> dof_at s p j d -> k = j.
Proof.
  destruct (u2_hist _ _ _ _ _ _ _ _ U) as [s0 [H E]]. destruct u_mesh as [m0 MH]. destruct (C30_is_balanced pts faces m0 m None MH) as [b [_ Ib]].
  destruct (C48_distribute pts faces e m s0 sf H) as [A B']. destruct b.
  - destruct (A (proj1 Ib eq_refl)) as [s' [E' [_ [_ F]]]]. assert (s' = s) by congruence. subst s'. apply F.
  - rewrite B' in E; [discriminate E|]. intros T. apply Ib in T. discriminate T.
Qed.
Lemma leaf_in p : sub_leaf (cells m) sf p -> in_sub (cells m) sf p.
Proof. intros [n [E [F _]]]. exists n. auto. Qed.
Lemma u_ne : L <> [].
Proof. intro E. pose proof (u2_basis _ _ _ _ _ _ _ _ U) as H. rewrite E in H. discriminate H. Qed.
Lemma u_snd : snd B = L.
Proof.
  pose proof (u2_basis _ _ _ _ _ _ _ _ U) as H. unfold basis_init in H. destruct L as [|d0 L0]; [discriminate H|].
  match type of H with bind ?X _ = _ => destruct X as [acc|]; [|discriminate H] end. cbn [bind] in H. injection H as <-. reflexivity.
Qed.
Lemma u_d2i d : In d L -> exists i, basis_d2i B d = Ok (Some i) /\ nth_error L i = Some d.
Proof.
  intro H. assert (X : forall d, In d L -> (d <= last L 0)%nat).
  { intros d' H'. destruct (le_lt_dec d' (last L 0%nat)) as [Hle|Hlt]; auto. pose proof (Prop_DofVert.C39_order L d' H' Hlt) as Z.
    rewrite (u2_basis _ _ _ _ _ _ _ _ U) in Z. discriminate Z. }
  destruct (Prop_DofVert.C39_index_maps L (u2_nodup _ _ _ _ _ _ _ _ U) u_ne X) as [B' [EB [_ [G _]]]].
  rewrite (u2_basis _ _ _ _ _ _ _ _ U) in EB. injection EB as <-.
  destruct (G d H) as [i [E1 [_ E2]]]. exists i. split; auto. unfold basis_i2d in E2. rewrite u_snd in E2.
  destruct (nth_error L i); congruence.
Qed.

Context (tol : Q) (HT : 0 <= tol) (PF : par_faces pts faces).
Definition good_bins2 (xs : list pt) (bs : binned) : Prop :=
  bins2 tol m sf None xs = Ok bs /\ Permutation (flat_map snd bs) (seq 0 (length xs)) /\
  forall q idx, In (q, idx) bs -> sub_leaf (cells m) sf q /\ forall j, In j idx -> exists x, nth_error xs j = Some x /\ qcontains tol (cell_quad m q) x = true.
Lemma in_within q x : in_quad q x -> within tol q x.
Proof. destruct q as [[[a b] c] d]. intros [A [B' [C D]]]. unfold within. repeat split; lra. Qed.
Lemma root_in t : In t (cells m) -> exists i, fget (cells m) [i] = Some t.
Proof. intros I. apply In_nth_error in I. destruct I as [i E]. exists i. cbn. rewrite E. reflexivity. Qed.
Lemma root_of i c : fget (cells m) [i] = Some c -> In c (cells m).
Proof. cbn. destruct (nth_error (cells m) i) as [n|] eqn:E; intros Q; [|discriminate Q]. cbn in Q. injection Q as <-. eapply nth_error_In. exact E. Qed.
Lemma u_bins xs : (forall x, In x xs -> covered m x) -> exists bs, good_bins2 xs bs.
Proof.
  intros X. destruct u_mesh as [m0 MH].
  destruct (BinGen.bin_gen (holds2 tol m) (cells m) sf (u2_rooted _ _ _ _ _ _ _ _ U) (cover2 MH tol HT sf (u2_rooted _ _ _ _ _ _ _ _ U)) xs) as [[[x [Hx Hn]] _]|[_ [bs [Eb [Pm [_ Hb]]]]]].
  - exfalso. destruct (X x Hx) as [i [q [S I]]]. pose proof (shape_quad [i] q S) as Q. destruct S as [c [_ [_ [_ [_ [Ec _]]]]]]. specialize (Hn c (root_of i c Ec)).
    rewrite (holds_cell tol [i] c x Ec) in Hn. apply in_within, within_contains in I. subst q. congruence.
  - exists bs. split; [exact Eb|]. split; [exact Pm|]. intros q idx I. destruct (Hb q idx I) as [_ [c [Ec [Lc Hj]]]]. split; [exists c; auto|].
    intros j Ij. destruct (Hj j Ij) as [x [Ex Hx]]. exists x. split; [exact Ex|]. rewrite (holds_cell tol q c x Ec) in Hx. exact Hx.
Qed.
Lemma u_bins_out xs : (exists x, In x xs /\ forall i q, shape_is m [i] q -> ~ within tol q x) -> bins2 tol m sf None xs = Err AssertionError.
Proof.
  intros [x [Hx N]]. destruct u_mesh as [m0 MH]. unfold bins2.
  destruct (BinGen.bin_gen (holds2 tol m) (cells m) sf (u2_rooted _ _ _ _ _ _ _ _ U) (cover2 MH tol HT sf (u2_rooted _ _ _ _ _ _ _ _ U)) xs) as [[_ E]|[X _]]; [exact E|].
  exfalso. destruct (X x Hx) as [t [It Ht]]. destruct (root_in t It) as [i Ei]. destruct (shape_total MH [i]) as [q S]; [exists t; exact Ei|]. pose proof (shape_quad [i] q S) as Q.
  rewrite (holds_cell tol [i] t x Ei), <- Q in Ht. apply within_contains in Ht. exact (N i q S Ht).
Qed.
(** the shape functions at a point of a leaf *)
Lemma u_row p x der : sub_leaf (cells m) sf p -> in_quad (cell_quad m p) x -> derivative_ok der ->
  exists xi, in_unit xi /\ peq (qmap (cell_quad m p) (fst xi) (snd xi)) x /\ shapes2 e m der p x = Ok (map (sv (cell_is_rectangle m p) (cell_quad m p) e der xi) (seq 0 (n_dofs D2 e))).
Proof.
  intros Lp I D. destruct u_mesh as [m0 MH]. assert (Cp : is_cell m p) by (destruct Lp as [c [E _]]; exists c; exact E).
  destruct (shape_total MH p Cp) as [q S]. pose proof (shape_quad p q S) as Q. destruct (shape_good MH (u2_faces _ _ _ _ _ _ _ _ U) p q S) as [C A]. pose proof (shape_par MH PF p q S) as P. subst q.
  destruct (find_ref (cell_is_rectangle m p) (cell_quad m p) x P C A I) as [xi [E [Ux Ex]]]. exists xi. split; [exact Ux|]. split; [exact Ex|].
  unfold shapes2. rewrite E. apply row_ok; assumption.
Qed.
Lemma u_cells der xs bs : derivative_ok der -> (forall x, In x xs -> clear tol m x) -> good_bins2 xs bs -> forall q idx, In (q, idx) bs -> exists ds, cell_dofs1 s q = Some ds /\ NoDup ds /\
  forall j, In j idx -> exists x row, nth_error xs j = Some x /\ shapes2 e m der q x = Ok row /\ length row = length ds.
Proof.
  intros D CL [_ [_ G]] q idx I. destruct (G q idx I) as [Lq Hj]. destruct (u_filled q (leaf_in q Lq)) as [Fq Iq]. destruct (Nodal1Facts.cell_dofs_filled s q _ Fq Iq) as [ds [Ed [Ld [Nd _]]]].
  exists ds. split; [exact Ed|]. split; [exact Nd|]. intros j Ij. destruct (Hj j Ij) as [x [Ex Hx]]. destruct u_mesh as [m0 MH].
  destruct (shape_total MH q) as [qd S]; [destruct Lq as [c [E _]]; exists c; exact E|]. pose proof (shape_quad q qd S) as Q. subst qd.
  apply within_contains in Hx. destruct (u_row q x der Lq (CL x (nth_error_In _ _ Ex) q _ S Hx) D) as [xi [_ [_ Er]]].
  exists x. eexists. split; [exact Ex|]. split; [exact Er|]. rewrite map_length, seq_length. symmetry. exact Ld.
Qed.
Lemma u_dofs xs bs : good_bins2 xs bs -> forall q idx ds d, In (q, idx) bs -> cell_dofs1 s q = Some ds -> In d ds -> In d L.
Proof.
  intros [_ [_ G]] q idx ds d I Ed Hd. destruct (G q idx I) as [Lq _].
  destruct (u_filled q (leaf_in q Lq)) as [Fq Iq]. destruct (Nodal1Facts.cell_dofs_filled s q _ Fq Iq) as [ds' [Ed' [_ [_ Hk]]]].
  rewrite Ed in Ed'. injection Ed' as <-. apply In_nth_error in Hd. destruct Hd as [k Hd]. apply (u2_dofs _ _ _ _ _ _ _ _ U). exists q, k. split; auto. apply Hk. auto.
Qed.
Lemma u_eval sl der data ns xs bs : set_order sl -> array_of (length L) ns data -> derivative_ok der -> (forall x, In x xs -> clear tol m x) -> good_bins2 xs bs ->
  exists R, nodal_eval2 tol e m sf s sl None der (mkNodal B data) xs = Ok R /\ length R = length xs /\
    forall j x r, nth_error xs j = Some x -> nth_error R j = Some r -> length r = ns /\
      exists p xi, seen_in m sf p xi x /\ forall t v W, (t < ns)%nat -> nodal_values L data t v -> represents2 e m sf s v W -> nth t r 0 == W der p xi.
Proof.
  intros SL [Ld Lr] D CL G. pose proof G as [Gb [Gp Gc]].
  assert (En : n_samples data = ns).
  { unfold n_samples. destruct data as [|r0 data0]; [|apply Lr; left; reflexivity]. exfalso. apply u_ne. cbn in Ld. apply length_zero_iff_nil. auto. }
  destruct (eval_x_spec (bins2 tol m sf None) (cell_dofs1 s) (shapes2 e m der) sl SL xs bs Gb Gp (u_cells der xs bs D CL G) (mkNodal B data) ns En) as [R [ER [LR HR]]].
  { intros q idx ds d H1 H2 H3. pose proof (u_dofs xs bs G q idx ds d H1 H2 H3) as Hd. destruct (u_d2i d Hd) as [i [E1 E2]].
    exists i. cbn. split; auto. rewrite Ld. apply nth_error_Some. congruence. }
  exists R. split; [exact ER|]. split; [exact LR|]. intros j x r Ex Er. destruct (HR j x r Ex Er) as [Lt [q [idx [ds [row [Hb [Hj [Ed [Es [Lrow Hs]]]]]]]]]].
  split; [exact Lt|]. destruct (Gc q idx Hb) as [Lq Hc]. destruct (Hc j Hj) as [x' [Ex' Hx]]. rewrite Ex in Ex'. injection Ex' as <-. destruct u_mesh as [m0 MH].
  destruct (shape_total MH q) as [qd S]; [destruct Lq as [c [E _]]; exists c; exact E|]. pose proof (shape_quad q qd S) as Q. subst qd. apply within_contains in Hx.
  destruct (u_row q x der Lq (CL x (nth_error_In _ _ Ex) q _ S Hx) D) as [xi [Ux [Mx Er']]]. assert (Q : row = map (sv (cell_is_rectangle m q) (cell_quad m q) e der xi) (seq 0 (n_dofs D2 e))) by congruence. clear Er'.
  exists q, xi. split; [split; [exact Lq|exists (cell_quad m q); auto]|]. intros t v W Ht Hv RW.
  destruct (u_filled q (leaf_in q Lq)) as [Fq Iq]. destruct (Nodal1Facts.cell_dofs_filled s q _ Fq Iq) as [ds' [Ed' [Lds _]]]. rewrite Ed in Ed'. injection Ed' as <-.
  assert (FI : forall p, sub_leaf (cells m) sf p -> filled (n_dofs D2 e) s p) by (intros p Lp; apply (u_filled p (leaf_in p Lp))).
  rewrite <- (@fe_value pts faces m0 (Region.mkR m 0%nat (fun _ _ => false) (fun _ _ => false)) sf e s MH (u2_faces _ _ _ _ _ _ _ _ U) FI v W q ds der xi RW Lq Ed D Ux).
  pose proof (sumQ_combine v (n_dofs D2 e) (fun k => sv (cell_is_rectangle m q) (cell_quad m q) e der xi k) ds Lds) as SC.
  eapply Qeq_trans; [|exact SC]. change (fun k : nat => sv (cell_is_rectangle m q) (cell_quad m q) e der xi k) with (sv (cell_is_rectangle m q) (cell_quad m q) e der xi). rewrite <- Q, (Hs t Ht).
  assert (Hds : forall d, In d ds -> value_of (mkNodal B data) t d == v d).
  { intros d Hd. pose proof (u_dofs xs bs G q idx ds d Hb Ed Hd) as HL. destruct (u_d2i d HL) as [i [E1 E2]].
    unfold value_of. cbn [nd_basis nd_data]. rewrite E1.
    destruct (nth_error data i) as [rw|] eqn:Erw; [|apply nth_error_None in Erw; assert (i < length L)%nat by (apply nth_error_Some; congruence); lia].
    destruct (Hv i d rw E2 Erw) as [y [Ey Evy]]. rewrite (nth_error_nth data i [] Erw), (nth_error_nth rw t 0 Ey). symmetry. exact Evy. }
  clear -Hds. revert row. induction ds as [|d ds IH]; intros [|c row]; cbn [combine map sumQ fst snd]; try reflexivity.
  rewrite (Hds d (or_introl eq_refl)), IH; [reflexivity|]. intros d' H; apply Hds; right; auto.
Qed.
End Use.

(** The values of the function with the nodal values of [data], or of its derivative in the plane, at
    points of the mesh: for every point and sample, the value of the finite element function (or of
    its derivative) in a leaf of the submesh that contains the point. *)
Theorem C89_values_partial pts faces e m sf s L B tol sl der data ns xs :
  in_use2 pts faces e m sf s L B -> par_faces pts faces -> 0 <= tol -> set_order sl -> array_of (length L) ns data -> derivative_ok der ->
  (forall x, In x xs -> covered m x /\ clear tol m x) ->
  exists R, nodal_eval2 tol e m sf s sl None der (mkNodal B data) xs = Ok R /\ length R = length xs /\
    forall j x r, nth_error xs j = Some x -> nth_error R j = Some r -> length r = ns /\
      exists p xi, seen_in m sf p xi x /\ forall t v W, (t < ns)%nat -> nodal_values L data t v -> represents2 e m sf s v W -> nth t r 0 == W der p xi.
Proof.
  intros U PF HT SL A D X. destruct (u_bins U tol HT xs (fun x I => proj1 (X x I))) as [bs G].
  exact (u_eval U tol PF sl der data ns xs bs SL A D (fun x I => proj2 (X x I)) G).
Qed.
Print Assumptions C89_values_partial.
(** the finite element functions of the statement exist *)
Theorem C89_functions pts faces e m sf s L B v : in_use2 pts faces e m sf s L B -> exists W, represents2 e m sf s v W.
Proof.
  intros U. destruct (u_mesh U) as [m0 MH]. assert (FI : forall p, sub_leaf (cells m) sf p -> filled (n_dofs D2 e) s p) by (intros p Lp; apply (u_filled U p (leaf_in p Lp))).
  exact (proj1 (Prop_Problem2.C86_functions pts faces m0 m sf e s v MH (u2_faces _ _ _ _ _ _ _ _ U) FI)).
Qed.
Print Assumptions C89_functions.
(** a point that no cell of the initial mesh contains is not accepted *)
Theorem C89_outside pts faces e m sf s L B tol sl der nd xs : in_use2 pts faces e m sf s L B -> 0 <= tol ->
  (exists x, In x xs /\ forall i q, shape_is m [i] q -> ~ within tol q x) ->
  nodal_eval2 tol e m sf s sl None der nd xs = Err AssertionError.
Proof. intros U HT X. unfold nodal_eval2, eval_x, global_phi. rewrite (u_bins_out U tol HT xs X). reflexivity. Qed.
Print Assumptions C89_outside.
(** On a grid, a continuous function: the value is that in every leaf that contains the point *)
Theorem C89_one_value_partial pts faces e m sf s L B tol sl data ns xs :
  in_use2 pts faces e m sf s L B -> par_faces pts faces -> 0 <= tol -> set_order sl -> array_of (length L) ns data ->
  (forall x, In x xs -> covered m x /\ clear tol m x) ->
  forall t v W, (t < ns)%nat -> nodal_values L data t v -> represents2 e m sf s v W -> continuous_in_plane e m s sf v ->
  exists R, nodal_eval2 tol e m sf s sl None V0 (mkNodal B data) xs = Ok R /\
    forall j x r, nth_error xs j = Some x -> nth_error R j = Some r ->
      forall p xi, seen_in m sf p xi x -> nth t r 0 == W V0 p xi.
Proof.
  intros U PF HT SL A X t v W Ht Hv RW CW. destruct (C89_values_partial pts faces e m sf s L B tol sl V0 data ns xs U PF HT SL A Logic.I X) as [R [E [_ HR]]].
  exists R. split; [exact E|]. intros j x r Ex Er p xi [Lp [q [S [Ux Mx]]]]. destruct (HR j x r Ex Er) as [_ [p' [xi' [[Lp' [q' [S' [Ux' Mx']]]] Hval]]]].
  rewrite (Hval t v W Ht Hv RW). destruct (RW p q xi Lp S Ux) as [V1' _]. destruct (RW p' q' xi' Lp' S' Ux') as [V2' _].
  assert (G : forall p q xi, shape_is m p q -> in_unit xi -> peq (qmap q (fst xi) (snd xi)) x -> value_at e s v p xi (W V0 p xi) -> Prop_Hang.value_in e m s v p x (W V0 p xi)).
  { clear. intros p q xi [c [v0 [v1 [v2 [v3 [E [EC ->]]]]]]] Ux Mx V. exists c, xi, v0, v1, v2, v3. repeat (split; [first [assumption|apply peq_sym; assumption]|]). assumption. }
  exact (CW p' p x _ _ Lp' Lp (G p' q' xi' S' Ux' Mx' V2') (G p q xi S Ux Mx V1')).
Qed.
Print Assumptions C89_one_value_partial.

(** The Basis of a dof handler: the dofs of the leaves of the submesh, each once *)
Theorem C89_basis pts faces e m sf s sl B : good_faces pts faces -> (exists s0, dof_history2 edit pts faces e m s0 /\ Dof2.distribute2 e m sf s0 = Ok s) ->
  submesh_rooted (cells m) sf -> set_order sl -> make_basis2 m sf s sl = Ok B -> in_use2 pts faces e m sf s (snd B) B.
Proof.
  intros GF HI Rt SL E. unfold make_basis2 in E.
  assert (FI : forall p, sub_leaf (cells m) sf p -> filled (n_dofs D2 e) s p).
  { intros p Lp. destruct HI as [s0 [H E']]. destruct (history_good edit pts faces e m s0 (fun _ _ x => x) H) as [[m0 MH] _]. destruct (C30_is_balanced pts faces m0 m None MH) as [b [_ Ib]].
    destruct (C48_distribute pts faces e m s0 sf H) as [A B']. destruct b.
    - destruct (A (proj1 Ib eq_refl)) as [s' [E2 [_ [_ F]]]]. assert (s' = s) by congruence. subst s'. apply F. apply leaf_in. exact Lp.
    - rewrite B' in E'; [discriminate E'|]. intros T. apply Ib in T. discriminate T. }
  set (ps := map fst (fget_leaves (cells m) None sf BreadthFirst)) in *.
  assert (Ps : forall p, In p ps <-> sub_leaf (cells m) sf p).
  { intros p. unfold ps. rewrite in_map_iff. split.
    - intros [[p' n] [<- I]]. apply in_fget_leaves in I. exists n. tauto.
    - intros [n [En Hn]]. exists (p, n). split; [reflexivity|]. apply in_fget_leaves. split; [exact En|]. split; [exact Hn|exact Logic.I]. }
  assert (G : forall ps acc, (forall p, In p ps -> sub_leaf (cells m) sf p) -> exists l, fold_res (fun acc p => match gd s p with Some l => Ok (acc ++ l) | None => Err TypeError end) ps acc = Ok l /\
     forall o, In o l <-> In o acc \/ exists p es, In p ps /\ gd s p = Some es /\ In o es).
  { clear - FI. induction ps as [|p ps IH]; intros acc HP; cbn [fold_res].
    - exists acc. split; [reflexivity|]. intros o. split; [auto|]. intros [I|[p [es [[] _]]]]. exact I.
    - destruct (FI p (HP p (or_introl eq_refl))) as [es [Ee _]]. rewrite Ee. cbn [bind]. destruct (IH (acc ++ es)) as [l [El Hl]]; [intros q I; apply HP; right; exact I|].
      exists l. split; [exact El|]. intros o. rewrite Hl, in_app_iff. split.
      + intros [[I|I]|[q [es' [I1 I2]]]]; [auto|right; exists p, es; cbn; auto|right; exists q, es'; cbn; tauto].
      + intros [I|[q [es' [[<-|I1] [I2 I3]]]]]; [auto|left; right; rewrite Ee in I2; injection I2 as <-; exact I3|right; exists q, es'; auto]. }
  destruct (G ps [] (fun p I => proj1 (Ps p) I)) as [l [El Hl]]. rewrite El in E. cbn [bind] in E. set (ds := flat_map _ l) in E.
  destruct (SL ds) as [ND IN].
  assert (Q : snd B = sl ds).
  { revert E. unfold basis_init. destruct (sl ds) as [|d0 L0]; [discriminate|]. intros E. match type of E with bind ?X _ = _ => destruct X as [acc|]; [|discriminate E] end. cbn [bind] in E. injection E as <-. reflexivity. }
  rewrite Q. constructor; auto. intros d. rewrite IN. unfold ds. rewrite in_flat_map. split.
  - intros [[d'|] [I J]]; [|destruct J]. destruct J as [->|[]]. apply Hl in I. destruct I as [[]|[p [es [Ip [Ee Ie]]]]]. apply In_nth_error in Ie. destruct Ie as [k Ek]. exists p, k. split; [apply Ps; exact Ip|]. exists es. auto.
  - intros [p [k [Lp [es [Ee Ek]]]]]. exists (Some d). split; [|left; reflexivity]. apply Hl. right. exists p, es. split; [apply Ps; exact Lp|]. split; [exact Ee|]. eapply nth_error_In; exact Ek.
Qed.
Print Assumptions C89_basis.

(** ** The interpolant of given functions *)
From Verif Require Import Grid2 GridFacts DofVert DofVert2 SpecDofVert2 DofVert2Facts DofVert2Hist Prop_Dirichlet2.
Open Scope Q_scope.
Lemma get_vertices dv : forall ds, (forall d, In d ds -> has_vertex2 dv d) -> exists xs, get_dof_vertices2 None dv (map Some ds) = Ok xs /\ length xs = length ds.
Proof.
  assert (G : forall ds acc, (forall d, In d ds -> has_vertex2 dv d) -> exists xs, fold_res (fun acc d => bind (dof_vertex2 None dv d) (fun x => Ok (acc ++ x))) (map Some ds) acc = Ok (acc ++ xs) /\ length xs = length ds).
  { induction ds as [|d ds IH]; intros acc H; cbn [map fold_res].
    - exists []. rewrite app_nil_r. auto.
    - destruct (H d (or_introl eq_refl)) as [x Ex]. unfold get_dof_vertices2 in Ex. cbn [fold_res] in Ex. destruct (dof_vertex2 None dv (Some d)) as [l|] eqn:E; [|discriminate Ex]. cbn [bind app] in Ex |- *. injection Ex as ->.
      destruct (IH (acc ++ [x]) (fun d' I => H d' (or_intror I))) as [xs [E' L']]. exists (x :: xs). rewrite E', <- app_assoc. split; [reflexivity|]. cbn. rewrite L'. reflexivity. }
  intros ds H. destruct (G ds [] H) as [xs X]. exists xs. exact X.
Qed.
Theorem C89_interpolant pts faces e m sf s L B dv fs : in_use2 pts faces e m sf s L B -> vertex_history2 edit pts faces e m s dv -> (forall d, In d L -> has_vertex2 dv d) ->
  exists data, nodal_from2 dv B fs = Ok (mkNodal B data) /\ array_of (length L) (length fs) data /\
    (forall i d row t f, nth_error L i = Some d -> nth_error data i = Some row -> nth_error fs t = Some f -> exists z, at_point e m s d z /\ nth_error row t = Some (f z)) /\
    forall t f v, nth_error fs t = Some f -> (forall d z, In d L -> at_point e m s d z -> v d == f z) -> nodal_values L data t v.
Proof.
  intros U VH HV. destruct (get_vertices dv L HV) as [xs [E Lx]]. exists (map (fun y => map (fun f => f y) fs) xs). unfold nodal_from2. rewrite (u_snd U), E. cbn [bind].
  split; [reflexivity|]. split; [split; [rewrite map_length; exact Lx|intros r I; apply in_map_iff in I; destruct I as [y [<- _]]; apply map_length]|].
  pose proof (proj1 (C87_positions pts faces e m s dv VH) L xs E) as F.
  assert (K : forall i d row t f, nth_error L i = Some d -> nth_error (map (fun y => map (fun f => f y) fs) xs) i = Some row -> nth_error fs t = Some f -> exists z, at_point e m s d z /\ nth_error row t = Some (f z)).
  { intros i d row t f Ed Er Ef. rewrite nth_error_map in Er. destruct (nth_error xs i) as [z|] eqn:Ez; [|discriminate Er]. cbn in Er. injection Er as <-. exists z. split.
    - clear - F Ed Ez. revert i Ed Ez. induction F as [|a b la lb H F IH]; intros [|i] Ed Ez; cbn in Ed, Ez; try discriminate Ed; [congruence|eauto].
    - rewrite nth_error_map, Ef. reflexivity. }
  split; [exact K|]. intros t f v Ef Hv i d row Ed Er. destruct (K i d row t f Ed Er Ef) as [z [Hz Ez]]. exists (f z). split; [exact Ez|]. apply Hv; [eapply nth_error_In; exact Ed|exact Hz].
Qed.
Print Assumptions C89_interpolant.

(** ** The theorems apply: Q2 on the grid of 2 x 1 unit squares, the right one refined; the
    derivative in x of the function with the values of x y at the dof vertices *)
Definition clearb (tol : Q) (m : mesh2) (x : pt) : bool :=
  forallb (fun c => negb (qcontains tol (cell_quad m (fst c)) x) || qcontains 0 (cell_quad m (fst c)) x) (ftraverse (cells m) None DepthFirst).
Definition coveredb (m : mesh2) (x : pt) : bool := existsb (fun i => match fget (cells m) [i] with Some _ => qcontains 0 (cell_quad m [i]) x | None => false end) [0; 1]%nat.
Lemma clearb_ok tol m x : clearb tol m x = true -> clear tol m x.
Proof.
  intros C p q S W. pose proof (shape_quad p q S) as Q. destruct S as [c [_ [_ [_ [_ [E _]]]]]]. unfold clearb in C. rewrite forallb_forall in C.
  specialize (C (p, c) (proj2 (in_ftraverse (cells m) None DepthFirst p c) (conj E Logic.I))). cbn [fst] in C. rewrite <- Q in C. apply within_contains in W. rewrite W in C. cbn in C. apply qcontains_0. exact C.
Qed.
Definition nq_points : list pt := [(1 # 3, 1 # 4); (5 # 4, 1 # 8); (1%Q, 1 # 2)].
Definition nq_f (z : pt) : Q := fst z * snd z.
Definition nq_check (r : res (mesh2 * (mesh2 * (dofs * dverts2)))) : bool :=
  match r with Err _ => false | Ok (m0, (m, (s, v))) =>
  match make_basis2 m None s Prop_Assemble.sorted_set with Err _ => false | Ok B =>
  match nodal_from2 v B [nq_f] with Err _ => false | Ok nd =>
  match nodal_eval2 (1 # 10000000000) Q2 m None s Prop_Assemble.sorted_set None (V1 0) nd nq_points with Err _ => false | Ok R =>
  (length (snd B) =? 31)%nat && forallb (clearb (1 # 10000000000) m) nq_points && forallb (coveredb m) nq_points &&
  (length R =? 3)%nat && forallb (fun xr => Qeq_bool (nth 0 (snd xr) 0) (snd (fst xr))) (combine nq_points R) end end end end.
Lemma nq_run : nq_check (vgrid 2 1 2 1 Q2 case_cs) = true.
Proof. vm_cast_no_check (eq_refl true). Qed.
Lemma grid_par nx ny (xa xb ya yb : Q) : xa < xb -> ya < yb -> par_faces (grid_points xa xb ya yb nx ny) (grid_faces nx ny).
Proof.
  intros Hx Hy fc If. apply aligned_parallelogram.
  destruct (in_grid_faces _ _ _ If) as [ix [iy [Lx [Ly Ef]]]].
  destruct (Prop_Grid.C25_faces nx ny ix iy xa xb ya yb Lx Ly) as (a & b & c & e & pa & pb & pc & pe & E & A1 & A2 & A3 & A4 & A5).
  rewrite grid_faces_nth in E by auto. rewrite Ef. injection E as E1 E2 E3 E4. unfold grid_face. cbn [nth].
  rewrite E1, E2, E3, E4, (nth_error_nth _ _ _ A1), (nth_error_nth _ _ _ A2), (nth_error_nth _ _ _ A3), (nth_error_nth _ _ _ A4).
  destruct A5 as ([u1 v1] & [u2 v2] & [u3 v3] & [u4 v4] & A6). destruct (A6 Hx Hy) as [W1 [W2 _]]. cbn [fst snd] in *.
  unfold aligned. cbn [fst snd]. rewrite u1, u2, u3, u4, v1, v2, v3, v4. repeat split; auto; reflexivity.
Qed.
Lemma vgrid_distributed nx ny (xb yb : Q) e c m0 m s v : vgrid nx ny xb yb e [c; None] = Ok (m0, (m, (s, v))) -> c <> None ->
  exists s0, dof_history2 edit (grid_points 0 xb 0 yb nx ny) (grid_faces nx ny) e m s0 /\ Dof2.distribute2 e m None s0 = Ok s.
Proof.
  intros EV NC. destruct c as [c|]; [|congruence]. pose proof (vgrid_history nx ny xb yb e _ m0 m s v (grid_ok nx ny xb yb) (Prop_QuadMesh.grid_quads nx ny) EV) as [[m1 [MH _]] _].
  exists no_dofs. split; [eapply DH2_start; exact MH|]. unfold vgrid in EV. destruct (determine2 _ _) as [d|]; [|discriminate EV]. cbn [bind] in EV. destruct (mesh_of_dcel _ _ _) as [m2|]; [|discriminate EV]. cbn [bind vrun fst snd] in EV.
  destruct (run_cmd m2 _) as [m3|]; [|discriminate EV]. cbn [bind vrun fst snd] in EV. destruct (distribute_dofs2 e m3 None (no_dofs, [])) as [[s3 v3]|] eqn:E6; [|discriminate EV]. cbn [bind] in EV.
  assert (Q : (m2, (m3, (s3, v3))) = (m0, (m, (s, v)))) by congruence. injection Q as -> -> -> ->.
  unfold distribute_dofs2 in E6. cbn [fst snd] in E6. destruct (Dof2.distribute2 e m None no_dofs) as [s4|] eqn:E7; [|discriminate E6]. cbn [bind] in E6.
  destruct (set_dof_vertices2 e m None s4 []) as [v4|]; [|discriminate E6]. cbn [bind] in E6. assert (Q : (s4, v4) = (s, v)) by congruence. injection Q as -> _. reflexivity.
Qed.
Lemma sorted_order : set_order Prop_Assemble.sorted_set.
Proof. intros l. destruct (Prop_Assemble.sorted_lists l) as [A [B _]]. auto. Qed.
Example C89_case : exists m s v B data R W, let pts := grid_points 0 2 0 1 2 1 in let faces := grid_faces 2 1 in
  in_use2 pts faces Q2 m None s (snd B) B /\ par_faces pts faces /\ length (snd B) = 31%nat /\
  nodal_from2 v B [nq_f] = Ok (mkNodal B data) /\ array_of (length (snd B)) 1 data /\
  (forall x, In x nq_points -> covered m x /\ clear (1 # 10000000000) m x) /\
  nodal_eval2 (1 # 10000000000) Q2 m None s Prop_Assemble.sorted_set None (V1 0) (mkNodal B data) nq_points = Ok R /\
  Forall (fun xr => nth 0 (snd xr) 0 == snd (fst xr)) (combine nq_points R) /\
  exists u, nodal_values (snd B) data 0 u /\ represents2 Q2 m None s u W /\
    forall j x r, nth_error nq_points j = Some x -> nth_error R j = Some r -> exists p xi, seen_in m None p xi x /\ W (V1 0) p xi == snd x.
Proof.
  pose proof nq_run as E. destruct (vgrid 2 1 2 1 Q2 case_cs) as [[m0 [m [s v]]]|] eqn:EV; [|discriminate E]. unfold nq_check in E.
  destruct (vgrid_history 2 1 2 1 Q2 case_cs m0 m s v (grid_ok 2 1 2 1) (Prop_QuadMesh.grid_quads 2 1) EV) as [[m1 [MH ->]] VH].
  destruct (vgrid_filled 2 1 2 1 Q2 (Some (CSplit None [1%nat])) m0 m s v EV ltac:(discriminate)) as [F1 F2].
  destruct (make_basis2 m None s Prop_Assemble.sorted_set) as [B|] eqn:EB; [|discriminate E].
  destruct (nodal_from2 v B [nq_f]) as [nd|] eqn:EN; [|discriminate E].
  destruct (nodal_eval2 _ _ _ _ _ _ _ _ _ _) as [R|] eqn:ER; [|discriminate E].
  apply andb_true_iff in E. destruct E as [E E5]. apply andb_true_iff in E. destruct E as [E E4]. apply andb_true_iff in E. destruct E as [E E3]. apply andb_true_iff in E. destruct E as [E1 E2].
  apply Nat.eqb_eq in E1, E4. rewrite forallb_forall in E2, E3, E5.
  assert (HI := vgrid_distributed 2 1 2 1 Q2 (Some (CSplit None [1%nat])) m0 m s v EV ltac:(discriminate)).
  assert (GF := Prop_Problem2.grid_good 2 1 0 2 0 1 eq_refl eq_refl). assert (PF := grid_par 2 1 0 2 0 1 eq_refl eq_refl).
  assert (U := C89_basis _ _ Q2 m None s _ B GF HI Logic.I sorted_order EB).
  assert (HV : forall d, In d (snd B) -> has_vertex2 v d) by (intros d I; apply (u2_dofs _ _ _ _ _ _ _ _ U) in I; destruct I as [p [k [Lp Dk]]]; exact (F2 p k d Lp Dk)).
  destruct (C89_interpolant _ _ Q2 m None s (snd B) B v [nq_f] U VH HV) as [data [EN' [AD _]]]. assert (nd = mkNodal B data) by congruence. subst nd.
  assert (X : forall x, In x nq_points -> covered m x /\ clear (1 # 10000000000) m x).
  { intros x I. split; [|apply clearb_ok, E2, I]. specialize (E3 x I). apply existsb_exists in E3. destruct E3 as [i [_ Ei]]. destruct (fget (cells m) [i]) as [c|] eqn:Ec; [|discriminate Ei].
    destruct (shape_total MH [i] (ex_intro _ c Ec)) as [q S]. pose proof (shape_quad [i] q S) as Q. exists i, q. split; [exact S|]. subst q. apply qcontains_0. exact Ei. }
  set (u := fun d => nth 0 (nth (match find (fun c => snd c =? d)%nat (combine (seq 0 (length (snd B))) (snd B)) with Some c => fst c | None => 0%nat end) data []) 0).
  assert (NV : nodal_values (snd B) data 0 u).
  { intros i d row Ed Er. assert (Q : find (fun c => snd c =? d)%nat (combine (seq 0 (length (snd B))) (snd B)) = Some (i, d)).
    { pose proof (u2_nodup _ _ _ _ _ _ _ _ U) as ND. revert ND Ed. generalize (snd B). clear. intros l.
      assert (G : forall l j i, NoDup l -> nth_error l i = Some d -> find (fun c => snd c =? d)%nat (combine (seq j (length l)) l) = Some ((j + i)%nat, d)).
      { induction l0 as [|a l0 IH]; intros j [|i0] ND Ed; cbn in Ed; try discriminate Ed; cbn [length seq combine find snd].
        - injection Ed as ->. rewrite Nat.eqb_refl, Nat.add_0_r. reflexivity.
        - inversion ND as [|? ? N1 N2]; subst. destruct (Nat.eqb_spec a d) as [->|_]; [destruct (N1 (nth_error_In _ _ Ed))|]. rewrite (IH (S j) i0 N2 Ed). do 2 f_equal. lia. }
      intros ND Ed. exact (G l 0%nat i ND Ed). }
    unfold u. rewrite Q. cbn [fst]. rewrite (nth_error_nth _ _ _ Er). pose proof (proj2 AD row (nth_error_In _ _ Er)) as Lr. destruct row as [|y [|]]; try discriminate Lr. exists y. split; reflexivity. }
  destruct (C89_functions _ _ Q2 m None s (snd B) B u U) as [W RW].
  destruct (C89_values_partial _ _ Q2 m None s (snd B) B (1 # 10000000000) Prop_Assemble.sorted_set (V1 0) data 1 nq_points U PF ltac:(discriminate) sorted_order AD Nat.lt_0_2 X) as [R' [ER' [_ HR]]].
  assert (R' = R) by congruence. subst R'.
  assert (VR : Forall (fun xr => nth 0 (snd xr) 0 == snd (fst xr)) (combine nq_points R)) by (apply Forall_forall; intros xr I; apply Qeq_bool_iff; exact (E5 xr I)).
  exists m, s, v, B, data, R, W. cbv zeta. split; [exact U|]. split; [exact PF|]. split; [exact E1|]. split; [exact EN|]. split; [exact AD|]. split; [exact X|]. split; [exact ER|]. split; [exact VR|].
  exists u. split; [exact NV|]. split; [exact RW|]. intros j x r Ex Er. destruct (HR j x r Ex Er) as [_ [p [xi [S Hv]]]]. exists p, xi. split; [exact S|]. rewrite <- (Hv 0%nat u W Nat.lt_0_1 NV RW).
  rewrite Forall_forall in VR. apply (VR (x, r)). clear - Ex Er. revert R j Ex Er. induction nq_points as [|a l IH]; intros [|b R] [|j] Ex Er; cbn in Ex, Er; try discriminate; [left; congruence|right; eauto].
Qed.
(** The tolerance is not usable: on a rectangular cell a point that the mesh takes to lie in a cell
    (so bin_points accepts it), but that is left of it by 1e-11, raises AssertionError: its reference
    point is not in the unit square. *)
Definition nq_near (tol : Q) (r : res (mesh2 * (mesh2 * (dofs * dverts2)))) : bool :=
  match r with Err _ => false | Ok (m0, (m, (s, v))) =>
  match make_basis2 m None s Prop_Assemble.sorted_set with Err _ => false | Ok B =>
  match nodal_from2 v B [nq_f] with Err _ => false | Ok nd =>
  match bins2 tol m None None [(- (1 # 100000000000), 1 # 2)], nodal_eval2 tol Q1 m None s Prop_Assemble.sorted_set None V0 nd [(- (1 # 100000000000), 1 # 2)] with
  | Ok [([0%nat], [0%nat])], Err AssertionError => true | _, _ => false end end end end.
Lemma nq_near_run : nq_near (1 # 10000000000) (vgrid 1 1 1 1 Q1 [Some (CMark 7%nat [0%nat]); None]) = true.
Proof. vm_cast_no_check (eq_refl true). Qed.
Theorem C89_tolerance_refuted : exists m s B nd x, in_use2 (grid_points 0 1 0 1 1 1) (grid_faces 1 1) Q1 m None s (snd B) B /\ par_faces (grid_points 0 1 0 1 1 1) (grid_faces 1 1) /\ nd_basis nd = B /\
  (exists q, shape_is m [0%nat] q /\ within (1 # 10000000000) q x) /\
  bins2 (1 # 10000000000) m None None [x] = Ok [([0%nat], [0%nat])] /\
  nodal_eval2 (1 # 10000000000) Q1 m None s Prop_Assemble.sorted_set None V0 nd [x] = Err AssertionError.
Proof.
  pose proof nq_near_run as E. destruct (vgrid 1 1 1 1 Q1 _) as [[m0 [m [s v]]]|] eqn:EV; [|discriminate E]. unfold nq_near in E.
  destruct (vgrid_history 1 1 1 1 Q1 _ m0 m s v (grid_ok 1 1 1 1) (Prop_QuadMesh.grid_quads 1 1) EV) as [[m1 [MH ->]] VH].
  assert (HI := vgrid_distributed 1 1 1 1 Q1 (Some (CMark 7%nat [0%nat])) m0 m s v EV ltac:(discriminate)).
  destruct (make_basis2 m None s Prop_Assemble.sorted_set) as [B|] eqn:EB; [|discriminate E].
  destruct (nodal_from2 v B [nq_f]) as [nd|] eqn:EN; [|discriminate E].
  assert (U := C89_basis _ _ Q1 m None s _ B (Prop_Problem2.grid_good 1 1 0 1 0 1 eq_refl eq_refl) HI Logic.I sorted_order EB).
  destruct (bins2 _ _ _ _ _) as [[|[[|[|] [|]] [|[|] [|]]] [|]]|] eqn:E1; try discriminate E.
  destruct (nodal_eval2 _ _ _ _ _ _ _ _ _ _) as [|[]] eqn:E2; try discriminate E.
  exists m, s, B, nd, (- (1 # 100000000000), 1 # 2). split; [exact U|]. split; [exact (grid_par 1 1 0 1 0 1 eq_refl eq_refl)|].
  split; [unfold nodal_from2 in EN; destruct (get_dof_vertices2 _ _ _); [|discriminate EN]; cbn [bind] in EN; injection EN as <-; reflexivity|].
  split; [|split; [exact E1|exact E2]].
  destruct (u_mesh U) as [m2 MH2].
  destruct (BinGen.bin_gen (holds2 (1 # 10000000000) m) (cells m) None Logic.I (cover2 MH2 (1 # 10000000000) ltac:(discriminate) None Logic.I) [(- (1 # 100000000000), 1 # 2)]) as [[_ X]|[_ [b [Eb [_ [_ Hb]]]]]].
  - unfold bins2 in E1. rewrite X in E1. discriminate E1.
  - unfold bins2 in E1. rewrite E1 in Eb. injection Eb as <-. destruct (Hb [0%nat] [0%nat] (or_introl eq_refl)) as [_ [c [Ec [_ Hj]]]]. destruct (Hj 0%nat (or_introl eq_refl)) as [x [Ex Hx]]. injection Ex as <-.
    destruct (shape_total MH2 [0%nat] (ex_intro _ c Ec)) as [q S]. pose proof (shape_quad [0%nat] q S) as Q. exists q. split; [exact S|]. rewrite (holds_cell _ [0%nat] c _ Ec), <- Q in Hx. apply within_contains. exact Hx.
Qed.
Print Assumptions C89_tolerance_refuted.

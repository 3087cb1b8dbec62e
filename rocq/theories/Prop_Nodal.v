(** * C60: evaluation of nodal functions, C61: interpolation of functions,
    C62: interpolants, C63: derivatives (1D meshes) *)
From Coq Require Import List Arith Bool Lia Permutation QArith Lqa Qfield.
From Verif Require Import Tree Forest SpecForest History Geom SpecGeom Mesh1D Fem SpecFem ShapeFacts
  Dof SpecDof DofVert SpecDofVert Basis Solver Nodal NodalFacts Nodal1 SpecNodal Nodal1Facts Nodal1Main Nodal1Interp Nodal1Cell Nodal1More.
From Verif Require Prop_Bin Prop_Dof1D Prop_DofVert Prop_Shape.
Import ListNotations.
Open Scope Q_scope.

(** ** C60 *)
(** eval(x) returns one row per point and one column per sample: the value, or
    the derivative, of the piecewise polynomial with the nodal values of the
    sample, in a leaf of the submesh that contains the point.  [set_list]: the
    order of list(set(..)) does not matter *)
Theorem C60_eval periodic a b e f sf s dv L B set_list der data ns xs :
  in_use periodic a b e f sf s dv L B -> set_order set_list -> array_of (length L) ns data ->
  (forall x, In x xs -> a <= x <= b) ->
  exists R, nodal_eval1 e f sf s set_list None der (mkNodal B data) xs = Ok R /\ length R = length xs /\
    forall j x r, nth_error xs j = Some x -> nth_error R j = Some r -> length r = ns /\
      exists p, leaf_around f sf x p /\
        forall t v, (t < ns)%nat -> nodal_values L data t v -> value_in e f s v der p x (nth t r 0).
Proof.
  intros U SL A X. destruct (use_bins U xs X) as [bs G]. destruct (eval_good U set_list None der data ns xs bs SL A G) as [R [ER [LR HR]]].
  exists R. split; auto. split; auto. intros j x r Ex Er. destruct (HR j x r Ex Er) as [Lr [p [idx [_ [_ [H1 H2]]]]]]. eauto.
Qed.
Print Assumptions C60_eval.
(** a point outside of the domain *)
Theorem C60_outside periodic a b e f sf s dv L B set_list der nd xs :
  in_use periodic a b e f sf s dv L B -> (exists x, In x xs /\ ~ a <= x <= b) ->
  nodal_eval1 e f sf s set_list None der nd xs = Err AssertionError.
Proof.
  intros U X. unfold nodal_eval1, eval_x, global_phi. rewrite (use_bins_out U xs X). reflexivity.
Qed.
Print Assumptions C60_outside.
(** with a cell that contains the points - in the submesh or not - the result is
    the same kind of value *)
Theorem C60_cell periodic a b e f sf s dv L B set_list der data ns xs q n :
  in_use periodic a b e f sf s dv L B -> set_order set_list -> array_of (length L) ns data ->
  fget f q = Some n -> xs <> [] -> (forall x, In x xs -> fst (n_data n) <= x <= snd (n_data n)) ->
  exists R, nodal_eval1 e f sf s set_list (Some q) der (mkNodal B data) xs = Ok R /\ length R = length xs /\
    forall j x r, nth_error xs j = Some x -> nth_error R j = Some r -> length r = ns /\
      exists p, leaf_around f sf x p /\
        forall t v, (t < ns)%nat -> nodal_values L data t v -> value_in e f s v der p x (nth t r 0).
Proof.
  intros U SL A Eq NX X. destruct (use_bins_cell U q n xs Eq NX X) as [bs G].
  destruct (eval_good U set_list (Some q) der data ns xs bs SL A G) as [R [ER [LR HR]]].
  exists R. split; auto. split; auto. intros j x r Ex Er. destruct (HR j x r Ex Er) as [Lr [p [idx [_ [_ [H1 H2]]]]]]. eauto.
Qed.
Print Assumptions C60_cell.
Theorem C60_cell_outside e (f : forest itv) sf s set_list der nd xs q n :
  fget f q = Some n -> (exists x, In x xs /\ ~ fst (n_data n) <= x <= snd (n_data n)) ->
  nodal_eval1 e f sf s set_list (Some q) der nd xs = Err AssertionError.
Proof.
  intros E X. unfold nodal_eval1, eval_x, global_phi. rewrite (use_bins_cell_out q n xs E X). reflexivity.
Qed.
Print Assumptions C60_cell_outside.
(** what these values are: in a leaf there is one polynomial with the nodal values *)
Theorem C60_unique periodic a b e f sf s dv L B v der p x y y' :
  in_use periodic a b e f sf s dv L B -> sub_leaf f sf p ->
  value_in e f s v der p x y -> value_in e f s v der p x y' -> y == y'.
Proof. intros U. apply (value_in_unique U). Qed.
Print Assumptions C60_unique.
(** a continuous element: the value is the same in all leaves that contain the point *)
Theorem C60_continuous periodic a b e f sf s dv L B v x y y' :
  in_use periodic a b e f sf s dv L B -> torn e = false ->
  fe_value e f sf s v V0 x y -> fe_value e f sf s v V0 x y' -> y == y'.
Proof. intros U. apply (continuous_value U). Qed.
Print Assumptions C60_continuous.
(** and at the two ends of a periodic mesh *)
Theorem C60_periodic a b e f sf s dv L B v y y' :
  in_use true a b e f sf s dv L B -> torn e = false ->
  fe_value e f sf s v V0 a y -> fe_value e f sf s v V0 b y' -> y == y'.
Proof. intros U. apply (periodic_value U v y y' eq_refl). Qed.
Print Assumptions C60_periodic.
(** a point that is inside of a leaf has the value of that leaf *)
Theorem C60_inside periodic a b e f sf s dv L B v der p n x y :
  in_use periodic a b e f sf s dv L B -> fget f p = Some n -> is_leaf_of sf n -> fst (n_data n) < x < snd (n_data n) ->
  fe_value e f sf s v der x y -> exists q, value_in e f s v der q x y /\ exists m, fget f q = Some m /\ n_data m = n_data n.
Proof.
  intros U En Ln X [q [[m [Em [Lm Xm]]] V]]. exists q. split; auto. exists m. split; auto.
  destruct (use_share U x p q n m En Ln Em Lm ltac:(lra) Xm) as [E|[[E _]|[E _]]]; [auto|lra|lra].
Qed.
Print Assumptions C60_inside.
(** eval(phi, dofs), dofs of the basis: the rows of phi are the coefficients *)
Theorem C60_coefficients periodic a b e f sf s dv L B data ns phi ds :
  in_use periodic a b e f sf s dv L B -> array_of (length L) ns data ->
  (forall d, In d ds -> In d L) -> (forall r, In r phi -> length r = length ds) ->
  exists R, eval_phi (mkNodal B data) phi ds = Ok R /\ length R = length phi /\
    forall j row r, nth_error phi j = Some row -> nth_error R j = Some r -> length r = ns /\
      forall t v, (t < ns)%nat -> nodal_values L data t v -> nth t r 0 == sumQ (map (fun cd => fst cd * v (snd cd)) (combine row ds)).
Proof.
  intros U [Ld Lr] Hd Hl.
  assert (En : n_samples data = ns).
  { unfold n_samples. destruct data as [|r0 data0]; [|apply Lr; left; reflexivity]. exfalso. apply (use_ne U). cbn in Ld. apply length_zero_iff_nil. auto. }
  rewrite (eval_phi_rows (mkNodal B data) ns ds phi En).
  - eexists. split; [reflexivity|]. split; [apply map_length|]. intros j row r Ep Er. rewrite nth_error_map, Ep in Er. cbn in Er. injection Er as <-.
    split; [rewrite map_length, seq_length; reflexivity|]. intros t v Ht V.
    rewrite (nth_indep _ 0 (sumQ (map (fun cd => fst cd * value_of (mkNodal B data) 0 (snd cd)) (combine row ds)))) by (rewrite map_length, seq_length; auto).
    rewrite (map_nth (fun t => sumQ (map (fun cd => fst cd * value_of (mkNodal B data) t (snd cd)) (combine row ds))) (seq 0 ns) 0%nat t), seq_nth by auto. cbn [plus].
    assert (Hds : forall d, In d ds -> value_of (mkNodal B data) t d == v d).
    { intros d H. destruct (use_d2i U d (Hd d H)) as [i [E1 E2]]. unfold value_of. cbn [nd_basis nd_data]. rewrite E1.
      destruct (nth_error data i) as [rw|] eqn:Erw; [|apply nth_error_None in Erw; assert (i < length L)%nat by (apply nth_error_Some; congruence); lia].
      destruct (V i d rw E2 Erw) as [y [Ey Evy]]. rewrite (nth_error_nth data i [] Erw), (nth_error_nth rw t 0 Ey). symmetry. exact Evy. }
    clear -Hds. revert row. induction ds as [|d ds IH]; intros [|c row]; cbn [combine map sumQ fst snd]; try reflexivity.
    rewrite (Hds d (or_introl eq_refl)), IH; [reflexivity|]. intros d' H; apply Hds; right; auto.
  - intros d H. destruct (use_d2i U d (Hd d H)) as [i [E1 E2]]. exists i. split; auto. cbn. rewrite Ld. apply nth_error_Some. congruence.
  - auto.
Qed.
Print Assumptions C60_coefficients.

(** ** C61 *)
(** Nodal(f=fs, basis=basis) takes the values of each function at the dof
    vertices: at every node of the submesh eval returns the value of the function
    (on a periodic mesh, if the function has the same value at both ends) *)
Definition respects (g : Q -> Q) : Prop := forall x y, x == y -> g x == g y.
Theorem C61_interpolates periodic a b e f sf s dv L B set_list fs nd xs :
  in_use periodic a b e f sf s dv L B -> set_order set_list -> nodal_from1 dv B fs = Ok nd ->
  (forall g, In g fs -> respects g /\ (periodic = true -> torn e = false -> g a == g b)) ->
  (forall x, In x xs -> exists p k, sub_leaf f sf p /\ position1 e f p k x) ->
  exists R, nodal_eval1 e f sf s set_list None V0 nd xs = Ok R /\ length R = length xs /\
    forall j x r t g, nth_error xs j = Some x -> nth_error R j = Some r -> nth_error fs t = Some g -> nth t r 0 == g x.
Proof.
  intros U SL E Hg Hx. destruct (from_values U fs nd E) as [EB [A V]].
  assert (X : forall x, In x xs -> a <= x <= b).
  { intros x H. destruct (Hx x H) as [p [k [[n [En Ln]] [n' [r [En' [Er ->]]]]]]]. rewrite En in En'. injection En' as <-.
    destruct (use_leaf_width U p n En Ln) as [W [A1 B1]]. destruct (Prop_Shape.C31_lagrange_1d e) as [_ LG]. destruct (LG k r Er) as [Ur _].
    unfold imap. clear -W Ur A1 B1. split; nra. }
  destruct (C60_eval _ _ _ _ _ _ _ _ _ _ set_list V0 (nd_data nd) (length fs) xs U SL A X) as [R [ER [LR HR]]].
  exists R. destruct nd as [B' data]. cbn [nd_basis nd_data] in *. subst B'. split; auto. split; auto. intros j x r t g Ex Er Eg.
  destruct (HR j x r Ex Er) as [Lr [p [Hp Hv]]].
  assert (Ht : (t < length fs)%nat) by (apply nth_error_Some; congruence).
  destruct (values_exist U data (length fs) t A Ht) as [v Vv]. specialize (Hv t v Ht Vv).
  destruct (Hg g (nth_error_In _ _ Eg)) as [Pg Ag].
  destruct (Hx x (nth_error_In _ _ Ex)) as [q [k [Sq Px]]].
  assert (Lk : (k < n_dofs D1 e)%nat) by (destruct Px as [n' [r' [_ [Er' _]]]]; rewrite <- nodes_len; apply nth_error_Some; congruence).
  destruct (node_value U v q k x p _ Sq Lk Px Hp Hv) as [i [d [z' [Hd [HL [Pz [Ez ->]]]]]]].
  rewrite (V t g v Eg Pg Ag Vv p i d z' HL Hd Pz). apply Pg. exact Ez.
Qed.
Print Assumptions C61_interpolates.
(** polynomials of the degree of the element are reproduced everywhere, with their derivatives *)
Theorem C61_reproduces periodic a b e f sf s dv L B set_list fs nd der xs :
  in_use periodic a b e f sf s dv L B -> set_order set_list -> nodal_from1 dv B fs = Ok nd ->
  (forall x, In x xs -> a <= x <= b) ->
  exists R, nodal_eval1 e f sf s set_list None der nd xs = Ok R /\ length R = length xs /\
    forall j x r t g c, nth_error xs j = Some x -> nth_error R j = Some r -> nth_error fs t = Some g ->
      (length c <= S (degree e))%nat -> (forall z, g z == poly c z) -> (periodic = true -> torn e = false -> g a == g b) ->
      poly_value der c x (nth t r 0).
Proof.
  intros U SL E X. destruct (from_values U fs nd E) as [EB [A V]].
  destruct (C60_eval _ _ _ _ _ _ _ _ _ _ set_list der (nd_data nd) (length fs) xs U SL A X) as [R [ER [LR HR]]].
  exists R. destruct nd as [B' data]. cbn [nd_basis nd_data] in *. subst B'. split; auto. split; auto. intros j x r t g c Ex Er Eg Lc Ec Ag.
  destruct (HR j x r Ex Er) as [Lr [p [Hp Hv]]].
  assert (Ht : (t < length fs)%nat) by (apply nth_error_Some; congruence).
  destruct (values_exist U data (length fs) t A Ht) as [v Vv]. specialize (Hv t v Ht Vv).
  assert (Pg : respects g) by (intros y y' Ey; rewrite !Ec; apply poly_proper; auto).
  assert (Sp : sub_leaf f sf p) by (destruct Hp as [n [En [Ln _]]]; exists n; auto).
  assert (Lp : local_poly e f s v p c).
  { apply (reproduce U v g p c Lc Sp); [intros z _; symmetry; apply Ec|]. intros k d z Hd Pz. apply (V t g v Eg Pg Ag Vv p k d z); auto.
    apply (use_L U). eauto. }
  destruct (poly_der der c (degree e) Lc (degree_3 e)) as [c' [_ P']].
  apply (poly_value_proper der c x (poly c' x)); [|apply P']. apply (value_in_unique U v der p x); auto. exists c. split; auto.
Qed.
Print Assumptions C61_reproduces.
(** the construction does not raise after a first distribution ... *)
Theorem C61_total periodic a b e f sf s dv B fs : mesh1d periodic a b e f -> submesh_rooted f sf ->
  distribute_dofs periodic e f sf (no_dofs, []) = Ok (s, dv) -> in_use periodic a b e f sf s dv (snd B) B ->
  exists nd, nodal_from1 dv B fs = Ok nd.
Proof.
  intros M R E U. unfold nodal_from1. destruct (vertices_total dv (snd B)) as [xs Ex]; [|rewrite Ex; cbn; eauto].
  intros d Hd. apply (use_L U) in Hd. destruct Hd as [p [k [Sp Hk]]]. apply (Prop_DofVert.C37_first _ _ _ _ _ _ _ _ M R E p k d); auto.
  apply leaf_sub; auto.
Qed.
Print Assumptions C61_total.
(** ... nor, for a continuous element, after any number of distributions on the whole mesh *)
Theorem C61_total_whole periodic a b e f s dv B fs : torn e = false -> vertex_history whole_mesh periodic a b e f s dv ->
  in_use periodic a b e f None s dv (snd B) B -> exists nd, nodal_from1 dv B fs = Ok nd.
Proof.
  intros T H U. unfold nodal_from1. destruct (vertices_total dv (snd B)) as [xs Ex]; [|rewrite Ex; cbn; eauto].
  intros d Hd. apply (use_L U) in Hd. destruct Hd as [p [k [Sp Hk]]]. apply (Prop_DofVert.C37_whole _ _ _ _ _ _ _ T H).
  apply (use_numbered U). eauto.
Qed.
Print Assumptions C61_total_whole.

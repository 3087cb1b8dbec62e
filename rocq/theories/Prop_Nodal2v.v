(** * C66: nodal functions of two variables *)
From Coq Require Import List Arith Bool Lia Permutation QArith Lqa Qfield.
From Verif Require Import Tree Forest SpecForest Geom SpecGeom Mesh1D Fem SpecFem ShapeFacts
  Dof SpecDof DofVert SpecDofVert Basis Solver Nodal NodalFacts Nodal1 SpecNodal Nodal1Facts Nodal1Main Nodal1Interp Nodal1Cell Nodal1More Nodal2v Prop_Nodal Prop_Nodal3.
From Verif Require Prop_Shape.
Import ListNotations.
Open Scope Q_scope.

(** an (n, n, m) array, and the values of sample [t]: one for each pair of dofs *)
Definition array2_of (n m : nat) (data : list (list (list Q))) : Prop := length data = n /\ forall r, In r data -> array_of n m r.
Definition nodal_values2 (L : list nat) (data : list (list (list Q))) (t : nat) (w : nat -> nat -> Q) : Prop :=
  forall i d row, nth_error L i = Some d -> nth_error data i = Some row -> nodal_values L row t (w d).
(** [z] is the value at (x, y): in the cell [p] for the first variable and in [q]
    for the second one.  [h d] is the value at [y] of the function of the second
    variable whose nodal values are those of the row of the dof [d]; [z] is the
    value at [x] of the function with the nodal values [h] *)
Definition value_in2 (e : elem) (f : forest itv) (s : dofs) (L : list nat) (w : nat -> nat -> Q) (dx dy : deriv) (p q : path) (x y z : Q) : Prop :=
  exists h, (forall d, In d L -> value_in e f s (w d) dy q y (h d)) /\ value_in e f s h dx p x z.

Section Use66.
Context {periodic : bool} {a b : Q} {e : elem} {f : forest itv} {sf : option flag} {s : dofs} {dv : dverts} {L : list nat} {B : bmaps}.
Hypothesis U : in_use periodic a b e f sf s dv L B.
Lemma d2i_at i d : nth_error L i = Some d -> basis_d2i B d = Ok (Some i).
Proof.
  intro E. destruct (use_d2i U d (nth_error_In _ _ E)) as [i' [E1 E2]].
  assert (i' = i) by (apply (proj1 (NoDup_nth_error L) (iu_nodup _ _ _ _ _ _ _ _ _ _ U)); [apply nth_error_Some; congruence|congruence]). congruence.
Qed.
Lemma value_of2_nodal data ns t w da db : array2_of (length L) ns data -> nodal_values2 L data t w -> In da L -> In db L ->
  value_of2 (mkNodal B data) t da db == w da db.
Proof.
  intros [Ld Lr] V Ha Hb. apply In_nth_error in Ha. destruct Ha as [i Ei]. apply In_nth_error in Hb. destruct Hb as [j Ej].
  unfold value_of2. cbn [nd_basis nd_data]. rewrite (d2i_at i da Ei), (d2i_at j db Ej).
  destruct (nth_error data i) as [row|] eqn:Er; [|apply nth_error_None in Er; assert (i < length L)%nat by (apply nth_error_Some; congruence); lia].
  destruct (Lr row (nth_error_In _ _ Er)) as [Lrow _].
  destruct (nth_error row j) as [c|] eqn:Ec; [|apply nth_error_None in Ec; assert (j < length L)%nat by (apply nth_error_Some; congruence); lia].
  destruct (V i da row Ei Er j db c Ej Ec) as [y [Ey Hy]]. rewrite (nth_error_nth data i [] Er), (nth_error_nth row j [] Ec), (nth_error_nth c t 0 Ey). symmetry. exact Hy.
Qed.
Lemma values2_exist data ns t : array2_of (length L) ns data -> (t < ns)%nat -> exists w, nodal_values2 L data t w.
Proof.
  intros A Ht. exists (value_of2 (mkNodal B data) t). intros i d row Ei Er j d' c Ej Ec. destruct A as [Ld Lr]. destruct (Lr row (nth_error_In _ _ Er)) as [Lrow Lc].
  destruct (nth_error c t) as [y|] eqn:Ey; [|apply nth_error_None in Ey; rewrite (Lc c (nth_error_In _ _ Ec)) in Ey; lia].
  exists y. split; auto. unfold value_of2. cbn [nd_basis nd_data]. rewrite (d2i_at i d Ei), (d2i_at j d' Ej), (nth_error_nth data i [] Er), (nth_error_nth row j [] Ec), (nth_error_nth c t 0 Ey). reflexivity.
Qed.

Lemma eval2_good sl c1 c2 dx dy data ns xs ys bx by_ : set_order sl -> array2_of (length L) ns data -> length xs = length ys ->
  @good_bins f sf (bins1 f sf c1) xs bx -> @good_bins f sf (bins1 f sf c2) ys by_ ->
  exists R, nodal_eval1_2 e f sf s sl c1 c2 dx dy (mkNodal B data) xs ys = Ok R /\ length R = length xs /\
    forall j x y r, nth_error xs j = Some x -> nth_error ys j = Some y -> nth_error R j = Some r -> length r = ns /\
      exists p q, leaf_around f sf x p /\ leaf_around f sf y q /\
        forall t w, (t < ns)%nat -> nodal_values2 L data t w -> value_in2 e f s L w dx dy p q x y (nth t r 0).
Proof.
  intros SL A Lxy G1 G2. pose proof A as [Ld Lr]. pose proof G1 as [Gb1 [Gp1 Gc1]]. pose proof G2 as [Gb2 [Gp2 Gc2]].
  assert (Nd : data <> []). { intro X. apply (use_ne U). apply length_zero_iff_nil. rewrite <- Ld, X. reflexivity. }
  assert (En : n_samples2 data = ns).
  { unfold n_samples2, n_samples. destruct data as [|r0 data0]; [congruence|]. cbn [nth]. destruct (Lr r0 (or_introl eq_refl)) as [L0 L1].
    destruct r0 as [|c0 r0']; [|apply L1; left; reflexivity]. exfalso. apply (use_ne U). apply length_zero_iff_nil. rewrite <- L0. reflexivity. }
  destruct (eval_x2_spec (bins1 f sf c1) (bins1 f sf c2) (cell_dofs1 s) (shapes1 e f dx) (shapes1 e f dy) sl SL xs ys bx by_ Gb1 Gb2 Gp1 Gp2
              (good_cells U dx xs bx _ G1) (good_cells U dy ys by_ _ G2) (mkNodal B data) ns En) as [R [ER [LR HR]]].
  { cbn. intros r Hr. rewrite Ld. apply Lr. auto. }
  { intros q idx ds d H1 H2 H3. pose proof (good_dofs U xs bx _ G1 q idx ds d H1 H2 H3) as Hd. destruct (use_d2i U d Hd) as [i [E1 E2]].
    exists i. cbn. split; auto. rewrite Ld. apply nth_error_Some. congruence. }
  { intros q idx ds d H1 H2 H3. pose proof (good_dofs U ys by_ _ G2 q idx ds d H1 H2 H3) as Hd. destruct (use_d2i U d Hd) as [i [E1 E2]].
    exists i. cbn. split; auto. rewrite Ld. apply nth_error_Some. congruence. }
  { auto. }
  exists R. split; [exact ER|]. split; auto. intros j x y r Ex Ey Er.
  destruct (HR j x y r Ex Ey Er) as [Lt [p [q [ix [iy [d1 [d2 [r1 [r2 [Hb1 [Hj1 [Hb2 [Hj2 [Ed1 [Es1 [L1 [Ed2 [Es2 [L2 Hs]]]]]]]]]]]]]]]]]]].
  split; auto. exists p, q.
  destruct (Gc1 p ix Hb1) as [n1 [En1 [Ln1 Hc1]]]. destruct (Hc1 j Hj1) as [x' [Ex' Hx]]. rewrite Ex in Ex'. injection Ex' as <-.
  destruct (Gc2 q iy Hb2) as [n2 [En2 [Ln2 Hc2]]]. destruct (Hc2 j Hj2) as [y' [Ey' Hy]]. rewrite Ey in Ey'. injection Ey' as <-.
  split; [exists n1; auto|]. split; [exists n2; auto|]. intros t w Ht V.
  assert (Sp : sub_leaf f sf p) by (exists n1; auto). assert (Sq : sub_leaf f sf q) by (exists n2; auto).
  destruct (use_filled U p (leaf_sub p Sp)) as [Fp Ip]. destruct (use_filled U q (leaf_sub q Sq)) as [Fq Iq].
  destruct (cell_dofs_filled s p _ Fp Ip) as [ds' [E' [Lp [_ Kp]]]]. rewrite Ed1 in E'. injection E' as <-.
  destruct (cell_dofs_filled s q _ Fq Iq) as [ds' [E' [Lq [_ Kq]]]]. rewrite Ed2 in E'. injection E' as <-.
  destruct (use_leaf_width U p n1 En1 Ln1) as [W1 _]. destruct (use_leaf_width U q n2 En2 Ln2) as [W2 _].
  set (h := fun d => sumQ (map (fun cb => fst cb * w d (snd cb)) (combine r2 d2))).
  exists h. split.
  - intros d _. apply (cell_value e f s (w d) dy q n2 d2 r2 y En2 W2 Hy Lq Kq Es2).
  - assert (Eq : sumQ (map (fun cd => fst cd * h (snd cd)) (combine r1 d1)) == nth t r 0).
    { rewrite (Hs t Ht). unfold sum2. apply sumQ_map_ext. intros [c da] Hc. cbn [fst snd].
      assert (Ha : In da L) by (apply (good_dofs U xs bx _ G1 p ix d1 da Hb1 Ed1); eapply in_combine_r; eauto).
      assert (Es : h da == sumQ (map (fun cb => fst cb * value_of2 (mkNodal B data) t da (snd cb)) (combine r2 d2))); [|rewrite Es; reflexivity].
      apply sumQ_map_ext. intros [c' db] Hc'. cbn [fst snd].
      assert (Hb : In db L) by (apply (good_dofs U ys by_ _ G2 q iy d2 db Hb2 Ed2); eapply in_combine_r; eauto).
      rewrite (value_of2_nodal data ns t w da db A V Ha Hb). reflexivity. }
    apply (value_in_proper U h h dx p x _ _ (fun d _ => Qeq_refl _) Sp Eq).
    apply (cell_value e f s h dx p n1 d1 r1 x En1 W1 Hx Lp Kp Es1).
Qed.
(** at a vertex of the dof, any position of the dof *)
Lemma place_eq xv i d x p k z (h : Q -> Q) : get_dof_vertices None dv (map Some L) = Ok xv -> nth_error L i = Some d -> nth_error xv i = Some x ->
  dof_at s p k d -> position1 e f p k z -> proper h -> (periodic = true -> torn e = false -> h a == h b) -> h x == h z.
Proof.
  intros Ev Ei Ex Hd Pz Ph Eh. pose proof (vertices_spec U xv Ev) as F.
  assert (Hx : exists p k, dof_at s p k d /\ position1 e f p k x).
  { clear -F Ei Ex. revert i Ei Ex. induction F as [|d' x' l l' H F IH]; intros [|i] Ei Ex; cbn in Ei, Ex; try discriminate; [injection Ei as <-; injection Ex as <-; exact H|eauto]. }
  destruct Hx as [p' [k' [Hd' Px]]]. destruct (one_place U _ _ _ _ _ _ _ Hd' Px Hd Pz) as [E|[E1 [E2 [[X1 X2]|[X1 X2]]]]].
  - apply Ph; auto.
  - rewrite (Ph x a X1), (Ph z b X2). auto.
  - rewrite (Ph x b X1), (Ph z a X2). symmetry. auto.
Qed.
Definition proper2 (g : Q -> Q -> Q) : Prop := forall x x' y y', x == x' -> y == y' -> g x y == g x' y'.
Definition ends_agree2 (g : Q -> Q -> Q) : Prop := periodic = true -> torn e = false -> forall x, g a x == g b x /\ g x a == g x b.
Lemma from_values2 fs nd : nodal_from1_2 dv B fs = Ok nd -> nd_basis nd = B /\ array2_of (length L) (length fs) (nd_data nd) /\
  forall t g w, nth_error fs t = Some g -> proper2 g -> ends_agree2 g -> nodal_values2 L (nd_data nd) t w ->
    forall p k d z p' k' d' z', In d L -> In d' L -> dof_at s p k d -> position1 e f p k z -> dof_at s p' k' d' -> position1 e f p' k' z' -> w d d' == g z' z.
Proof.
  intro E. unfold nodal_from1_2 in E. rewrite (use_snd U) in E. destruct (get_dof_vertices None dv (map Some L)) as [xv|] eqn:Ev; [|discriminate E].
  cbn [bind] in E. injection E as <-. unfold nodal_of_function2. cbn [nd_basis nd_data]. pose proof (vertices_spec U xv Ev) as F. pose proof (f2_len _ _ _ F) as LF. split; auto. split.
  - split; [rewrite map_length; auto|]. intros r H. apply in_map_iff in H. destruct H as [y [<- _]]. split; [rewrite map_length; auto|].
    intros c H. apply in_map_iff in H. destruct H as [z [<- _]]. apply map_length.
  - intros t g w Eg Pg Ag V p k d z p' k' d' z' Hd Hd' Hk Pz Hk' Pz'.
    apply In_nth_error in Hd. destruct Hd as [i Ei]. apply In_nth_error in Hd'. destruct Hd' as [j Ej].
    destruct (nth_error xv i) as [x|] eqn:Ex; [|apply nth_error_None in Ex; assert (i < length L)%nat by (apply nth_error_Some; congruence); lia].
    destruct (nth_error xv j) as [y|] eqn:Ey; [|apply nth_error_None in Ey; assert (j < length L)%nat by (apply nth_error_Some; congruence); lia].
    destruct (V i d (map (fun xb => map (fun f => f xb x) fs) xv) Ei) with (i := j) (d := d') (row := map (fun f => f y x) fs) as [u [Eu Hu]]; auto.
    { rewrite nth_error_map, Ex. reflexivity. } { rewrite nth_error_map, Ey. reflexivity. }
    rewrite nth_error_map, Eg in Eu. cbn in Eu. injection Eu as <-. rewrite Hu.
    rewrite (place_eq xv j d' y p' k' z' (fun u => g u x) Ev Ej Ey Hk' Pz'); [|intros u u' Eu; apply Pg; [auto|reflexivity]|intros T1 T2; apply (Ag T1 T2 x)].
    apply (place_eq xv i d x p k z (fun u => g z' u) Ev Ei Ex Hk Pz); [intros u u' Eu; apply Pg; [reflexivity|auto]|intros T1 T2; apply (Ag T1 T2 z')].
Qed.
End Use66.

(** eval((x, y)): one row per pair of points, one column per sample *)
Theorem C66_eval periodic a b e f sf s dv L B set_list dx dy data ns xs ys :
  in_use periodic a b e f sf s dv L B -> set_order set_list -> array2_of (length L) ns data -> length xs = length ys ->
  (forall x, In x xs -> a <= x <= b) -> (forall y, In y ys -> a <= y <= b) ->
  exists R, nodal_eval1_2 e f sf s set_list None None dx dy (mkNodal B data) xs ys = Ok R /\ length R = length xs /\
    forall j x y r, nth_error xs j = Some x -> nth_error ys j = Some y -> nth_error R j = Some r -> length r = ns /\
      exists p q, leaf_around f sf x p /\ leaf_around f sf y q /\
        forall t w, (t < ns)%nat -> nodal_values2 L data t w -> value_in2 e f s L w dx dy p q x y (nth t r 0).
Proof.
  intros U SL A Lxy X Y. destruct (use_bins U xs X) as [bx G1]. destruct (use_bins U ys Y) as [by_ G2].
  apply (eval2_good U set_list None None dx dy data ns xs ys bx by_); auto.
Qed.
Print Assumptions C66_eval.
(** with a cell for each of the variables *)
Theorem C66_cell periodic a b e f sf s dv L B set_list dx dy data ns xs ys q1 n1 q2 n2 :
  in_use periodic a b e f sf s dv L B -> set_order set_list -> array2_of (length L) ns data -> length xs = length ys -> xs <> [] ->
  fget f q1 = Some n1 -> (forall x, In x xs -> fst (n_data n1) <= x <= snd (n_data n1)) ->
  fget f q2 = Some n2 -> (forall y, In y ys -> fst (n_data n2) <= y <= snd (n_data n2)) ->
  exists R, nodal_eval1_2 e f sf s set_list (Some q1) (Some q2) dx dy (mkNodal B data) xs ys = Ok R /\ length R = length xs /\
    forall j x y r, nth_error xs j = Some x -> nth_error ys j = Some y -> nth_error R j = Some r -> length r = ns /\
      exists p q, leaf_around f sf x p /\ leaf_around f sf y q /\
        forall t w, (t < ns)%nat -> nodal_values2 L data t w -> value_in2 e f s L w dx dy p q x y (nth t r 0).
Proof.
  intros U SL A Lxy Nx E1 X E2 Y. destruct (use_bins_cell U q1 n1 xs E1 Nx X) as [bx G1].
  assert (Ny : ys <> []) by (intro Z; apply Nx; apply length_zero_iff_nil; rewrite Lxy, Z; reflexivity).
  destruct (use_bins_cell U q2 n2 ys E2 Ny Y) as [by_ G2].
  apply (eval2_good U set_list (Some q1) (Some q2) dx dy data ns xs ys bx by_); auto.
Qed.
Print Assumptions C66_cell.
(** different numbers of points; points outside of the domain *)
Theorem C66_outside periodic a b e f sf s dv L B set_list dx dy nd xs ys :
  in_use periodic a b e f sf s dv L B -> length xs <> length ys \/ (exists x, In x xs /\ ~ a <= x <= b) ->
  nodal_eval1_2 e f sf s set_list None None dx dy nd xs ys = Err AssertionError.
Proof.
  intros U H. unfold nodal_eval1_2, eval_x2. destruct (length xs =? length ys)%nat eqn:E; [|reflexivity]. cbn [negb]. apply Nat.eqb_eq in E.
  destruct H as [H|H]; [congruence|]. unfold global_phi. rewrite (use_bins_out U xs H). reflexivity.
Qed.
Print Assumptions C66_outside.
(** the value is determined by the leaves *)
Theorem C66_unique periodic a b e f sf s dv L B w dx dy p q x y z z' :
  in_use periodic a b e f sf s dv L B -> sub_leaf f sf p -> sub_leaf f sf q ->
  value_in2 e f s L w dx dy p q x y z -> value_in2 e f s L w dx dy p q x y z' -> z == z'.
Proof.
  intros U Sp Sq [h [H1 H2]] [h' [H1' H2']]. apply (value_in_unique U h' dx p x); auto.
  apply (value_in_proper U h h' dx p x z z); auto; [|reflexivity]. intros d Hd. apply (value_in_unique U (w d) dy q y); auto.
Qed.
Print Assumptions C66_unique.
(** Nodal(f=fs, basis=.., n_variables=2): at the nodes eval((x, y)) is the value
    of the function at (y, x) *)
Theorem C66_nodes periodic a b e f sf s dv L B set_list fs nd xs ys :
  in_use periodic a b e f sf s dv L B -> set_order set_list -> nodal_from1_2 dv B fs = Ok nd -> length xs = length ys ->
  (forall g, In g fs -> proper2 g /\ (periodic = true -> torn e = false -> forall x, g a x == g b x /\ g x a == g x b)) ->
  (forall x, In x xs -> exists p k, sub_leaf f sf p /\ position1 e f p k x) ->
  (forall y, In y ys -> exists p k, sub_leaf f sf p /\ position1 e f p k y) ->
  exists R, nodal_eval1_2 e f sf s set_list None None V0 V0 nd xs ys = Ok R /\ length R = length xs /\
    forall j x y r t g, nth_error xs j = Some x -> nth_error ys j = Some y -> nth_error R j = Some r -> nth_error fs t = Some g -> nth t r 0 == g y x.
Proof.
  intros U SL E Lxy Hg Hx Hy. destruct (from_values2 U fs nd E) as [EB [A V]].
  assert (X : forall x, (exists p k, sub_leaf f sf p /\ position1 e f p k x) -> a <= x <= b).
  { intros x [p [k [[n [En Ln]] [n' [r [En' [Er ->]]]]]]]. rewrite En in En'. injection En' as <-.
    destruct (use_leaf_width U p n En Ln) as [W [A1 B1]]. destruct (Prop_Shape.C31_lagrange_1d e) as [_ LG]. destruct (LG k r Er) as [Ur _].
    unfold imap. clear -W Ur A1 B1. split; nra. }
  destruct (C66_eval _ _ _ _ _ _ _ _ _ _ set_list V0 V0 (nd_data nd) (length fs) xs ys U SL A Lxy (fun x H => X x (Hx x H)) (fun y H => X y (Hy y H))) as [R [ER [LR HR]]].
  exists R. destruct nd as [B' data]. cbn [nd_basis nd_data] in *. subst B'. split; auto. split; auto. intros j x y r t g Ex Ey Er Eg.
  destruct (HR j x y r Ex Ey Er) as [Lr [p [q [Hp [Hq Hv]]]]].
  assert (Ht : (t < length fs)%nat) by (apply nth_error_Some; congruence).
  destruct (values2_exist U data (length fs) t A Ht) as [w Vw]. destruct (Hv t w Ht Vw) as [h [H1 H2]].
  destruct (Hg g (nth_error_In _ _ Eg)) as [Pg Ag].
  destruct (Hx x (nth_error_In _ _ Ex)) as [p0 [k0 [Sp0 Px]]]. destruct (Hy y (nth_error_In _ _ Ey)) as [q0 [m0 [Sq0 Py]]].
  assert (Lk : forall p k x, position1 e f p k x -> (k < n_dofs D1 e)%nat).
  { intros p1 k1 x1 [n' [r' [_ [Er' _]]]]. rewrite <- nodes_len. apply nth_error_Some. congruence. }
  destruct (node_value U h p0 k0 x p _ Sp0 (Lk _ _ _ Px) Px Hp H2) as [i [d [z' [Hd [HL [Pz [Ez ->]]]]]]].
  destruct (node_value U (w d) q0 m0 y q _ Sq0 (Lk _ _ _ Py) Py Hq (H1 d HL)) as [i' [d' [z'' [Hd' [HL' [Pz' [Ez' ->]]]]]]].
  rewrite (V t g w Eg Pg Ag Vw p i d z' q i' d' z'' HL HL' Hd Pz Hd' Pz'). apply Pg; auto.
Qed.
Print Assumptions C66_nodes.
(** so symmetric functions are interpolated *)
Corollary C66_symmetric periodic a b e f sf s dv L B set_list fs nd xs ys :
  in_use periodic a b e f sf s dv L B -> set_order set_list -> nodal_from1_2 dv B fs = Ok nd -> length xs = length ys ->
  (forall g, In g fs -> proper2 g /\ (forall x y, g x y == g y x) /\ (periodic = true -> torn e = false -> forall x, g a x == g b x)) ->
  (forall x, In x xs -> exists p k, sub_leaf f sf p /\ position1 e f p k x) ->
  (forall y, In y ys -> exists p k, sub_leaf f sf p /\ position1 e f p k y) ->
  exists R, nodal_eval1_2 e f sf s set_list None None V0 V0 nd xs ys = Ok R /\ length R = length xs /\
    forall j x y r t g, nth_error xs j = Some x -> nth_error ys j = Some y -> nth_error R j = Some r -> nth_error fs t = Some g -> nth t r 0 == g x y.
Proof.
  intros U SL E Lxy Hg Hx Hy. destruct (C66_nodes _ _ _ _ _ _ _ _ _ _ set_list fs nd xs ys U SL E Lxy) as [R [ER [LR HR]]]; auto.
  - intros g H. destruct (Hg g H) as [P [Sy Pe]]. split; auto. intros T1 T2 x. split; [apply Pe; auto|]. rewrite (Sy x a), (Sy x b). apply Pe; auto.
  - exists R. split; auto. split; auto. intros j x y r t g Ex Ey Er Eg. rewrite (HR j x y r t g Ex Ey Er Eg). apply (Hg g (nth_error_In _ _ Eg)).
Qed.
Print Assumptions C66_symmetric.
(** functions that are polynomials of the degree of the element in each variable
    are reproduced everywhere - transposed *)
Theorem C66_reproduces periodic a b e f sf s dv L B set_list fs nd xs ys :
  in_use periodic a b e f sf s dv L B -> set_order set_list -> nodal_from1_2 dv B fs = Ok nd -> length xs = length ys ->
  (forall x, In x xs -> a <= x <= b) -> (forall y, In y ys -> a <= y <= b) ->
  exists R, nodal_eval1_2 e f sf s set_list None None V0 V0 nd xs ys = Ok R /\ length R = length xs /\
    forall j x y r t g, nth_error xs j = Some x -> nth_error ys j = Some y -> nth_error R j = Some r -> nth_error fs t = Some g ->
      proper2 g -> (periodic = true -> torn e = false -> forall x, g a x == g b x /\ g x a == g x b) ->
      (forall x, exists c, (length c <= S (degree e))%nat /\ forall y, g x y == poly c y) ->
      (forall y, exists c, (length c <= S (degree e))%nat /\ forall x, g x y == poly c x) ->
      nth t r 0 == g y x.
Proof.
  intros U SL E Lxy X Y. destruct (from_values2 U fs nd E) as [EB [A V]].
  destruct (C66_eval _ _ _ _ _ _ _ _ _ _ set_list V0 V0 (nd_data nd) (length fs) xs ys U SL A Lxy X Y) as [R [ER [LR HR]]].
  exists R. destruct nd as [B' data]. cbn [nd_basis nd_data] in *. subst B'. split; auto. split; auto. intros j x y r t g Ex Ey Er Eg Pg Ag G1 G2.
  destruct (HR j x y r Ex Ey Er) as [Lr [p [q [Hp [Hq Hv]]]]].
  assert (Ht : (t < length fs)%nat) by (apply nth_error_Some; congruence).
  destruct (values2_exist U data (length fs) t A Ht) as [w Vw]. destruct (Hv t w Ht Vw) as [h [H1 H2]].
  assert (Sp : sub_leaf f sf p) by (destruct Hp as [n [En [Ln _]]]; exists n; auto).
  assert (Sq : sub_leaf f sf q) by (destruct Hq as [n [En [Ln _]]]; exists n; auto).
  assert (Hh : forall k d z, dof_at s p k d -> position1 e f p k z -> h d == g y z).
  { intros k d z Hd Pz. assert (HL : In d L) by (apply (use_L U); eauto). destruct (G2 z) as [c [Lc Ec]].
    apply (value_in_unique U (w d) V0 q y); auto. exists c. split; [|cbn; apply Ec].
    apply (reproduce U (w d) (fun u => g u z) q c Lc Sq); [intros u _; symmetry; apply Ec|].
    intros k' d' z' Hd' Pz'. apply (V t g w Eg Pg Ag Vw p k d z q k' d' z' HL); auto. apply (use_L U). eauto. }
  destruct (G1 y) as [c [Lc Ec]]. apply (value_in_unique U h V0 p x); auto. exists c. split; [|cbn; apply Ec].
  apply (reproduce U h (g y) p c Lc Sp); [intros u _; symmetry; apply Ec|]. exact Hh.
Qed.
Print Assumptions C66_reproduces.
(** the construction works whenever it does for functions of one variable *)
Theorem C66_total dv B fs gs nd : nodal_from1 dv B gs = Ok nd -> exists nd2, nodal_from1_2 dv B fs = Ok nd2.
Proof. unfold nodal_from1, nodal_from1_2. destruct (get_dof_vertices _ _ _); [|discriminate]. cbn. eauto. Qed.
Print Assumptions C66_total.

(** ** Cases *)
Definition nx_nd2 (e : elem) (g : Q -> Q -> Q) : nodal (list (list Q)) := ok (mkNodal ([], []) []) (nodal_from1_2 (snd (nx_sv false e)) (nx_B false e) [g]).
Definition ev2 (e : elem) (dx dy : deriv) (g : Q -> Q -> Q) (xs ys : list Q) := rd (nodal_eval1_2 e nx_f None (fst (nx_sv false e)) sorted_set None None dx dy (nx_nd2 e g) xs ys).
Example C66_case_use : in_use false 0 1 Q2 nx_f None (fst (nx_sv false Q2)) (snd (nx_sv false Q2)) (snd (nx_B false Q2)) (nx_B false Q2).
Proof. apply nx_use. vm_compute. reflexivity. Qed.
Example C66_case_from : exists nd, nodal_from1_2 (snd (nx_sv false Q2)) (nx_B false Q2) [fun x y => x * y] = Ok nd.
Proof. eexists. vm_compute. reflexivity. Qed.
Example C66_case : ev2 Q2 V0 V0 (fun x y => x * y * (x + y)) [1 # 3; 1 # 4] [1 # 5; 3 # 4] = Ok [[8 # 225]; [3 # 16]].
Proof. vm_compute. reflexivity. Qed.
(** the interpolant of a function that is not symmetric is not that function at the nodes: eval((1, 0)) for f(x, y) = x *)
Theorem C66_transposed_refuted : exists nd x y, in_use false 0 1 Q1 nx_f None (fst (nx_sv false Q1)) (snd (nx_sv false Q1)) (snd (nx_B false Q1)) (nx_B false Q1) /\
  nodal_from1_2 (snd (nx_sv false Q1)) (nx_B false Q1) [fun x y => x] = Ok nd /\
  (exists p k, sub_leaf nx_f None p /\ position1 Q1 nx_f p k x) /\ (exists p k, sub_leaf nx_f None p /\ position1 Q1 nx_f p k y) /\
  ~ y == x /\ rd (nodal_eval1_2 Q1 nx_f None (fst (nx_sv false Q1)) sorted_set None None V0 V0 nd [x] [y]) = Ok [[Qred y]].
Proof.
  assert (SL : sub_leaf nx_f None [1%nat]).
  { eexists. split; [vm_compute; reflexivity|]. split; [exact Logic.I|]. intros [|[|[|i]]] k; cbn; discriminate. }
  assert (E : exists n, fget nx_f [1%nat] = Some n) by (eexists; vm_compute; reflexivity). destruct E as [n En].
  eexists _, (imap (n_data n) 1), (imap (n_data n) 0). split; [apply nx_use; vm_compute; reflexivity|]. split; [vm_compute; reflexivity|].
  split; [|split; [|]].
  - exists [1%nat], 1%nat. split; auto. exists n, 1. repeat split; auto.
  - exists [1%nat], 0%nat. split; auto. exists n, 0. repeat split; auto.
  - vm_compute in En. injection En as <-. split; [intro X; vm_compute in X; discriminate X|vm_compute; reflexivity].
Qed.
Print Assumptions C66_transposed_refuted.

(** * C62: interpolants, C63: derivatives of nodal functions (1D meshes) *)
From Coq Require Import List Arith Bool Lia Permutation QArith Lqa Qfield.
From Verif Require Import Tree Forest SpecForest History Geom SpecGeom Mesh1D Fem SpecFem ShapeFacts
  Dof SpecDof DofVert SpecDofVert Basis Solver Nodal NodalFacts Nodal1 SpecNodal Nodal1Facts Nodal1Main Nodal1Interp Nodal1Cell Nodal1More Prop_Nodal.
From Verif Require Prop_Bin Prop_Dof1D Prop_DofVert Prop_Shape.
Import ListNotations.
Open Scope Q_scope.

(** every leaf of the first submesh lies in a leaf of the second *)
Definition finer (f : forest itv) (sf' sf : option flag) : Prop :=
  forall p' n', fget f p' = Some n' -> is_leaf_of sf' n' ->
  exists p n, fget f p = Some n /\ is_leaf_of sf n /\ fst (n_data n) <= fst (n_data n') /\ snd (n_data n') <= snd (n_data n).

Section Given.
Context {periodic : bool} {a b : Q} {e : elem} {f : forest itv} {sf : option flag} {s : dofs} {dv : dverts} {L : list nat} {B : bmaps}.
Hypothesis U : in_use periodic a b e f sf s dv L B.
Lemma value_exists v x : a <= x <= b -> exists y, fe_value e f sf s v V0 x y.
Proof.
  intro X. set (data := map (fun d => [v d]) L).
  assert (A : array_of (length L) 1 data) by (split; [apply map_length|]; intros r H; apply in_map_iff in H; destruct H as [d [<- _]]; reflexivity).
  assert (V : nodal_values L data 0 v).
  { intros i d row Ei Er. unfold data in Er. rewrite nth_error_map, Ei in Er. cbn in Er. injection Er as <-. exists (v d). split; reflexivity. }
  assert (SL : set_order (nodup Nat.eq_dec)) by (intro l; split; [apply NoDup_nodup|intro d; apply nodup_In]).
  destruct (C60_eval _ _ _ _ _ _ _ _ _ _ _ V0 data 1%nat [x] U SL A) as [R [_ [LR HR]]]; [intros x' [<-|[]]; auto|].
  destruct R as [|r [|? ?]]; try discriminate. destruct (HR 0%nat x r eq_refl eq_refl) as [_ [p [Hp Hv]]].
  exists (nth 0 r 0), p. split; auto.
Qed.
Lemma ends_value v : periodic = true -> torn e = false -> forall y, fe_value e f sf s v V0 a y <-> fe_value e f sf s v V0 b y.
Proof.
  intros PT NT y. assert (AB : a <= b).
  { destruct (use_mesh U) as [_ [T _]]. pose proof (use_f_ne U) as N.
    assert (Ht : exists t, In t f) by (clear -N; destruct f as [|t f0]; [congruence|exists t; left; reflexivity]).
    destruct Ht as [t Ht]. destruct (tiles_mem a b (map n_data f) (n_data t) T); [apply in_map; auto|]. lra. }
  split; intro H.
  - destruct (value_exists v b) as [y' H']; [lra|]. apply (fe_value_proper v b b y' y); [reflexivity| |auto]. symmetry. apply (periodic_value U v y y' PT NT H H').
  - destruct (value_exists v a) as [y' H']; [lra|]. apply (fe_value_proper v a a y' y); [reflexivity| |auto]. apply (periodic_value U v y' y PT NT H' H).
Qed.
End Given.

Section Interpolant.
Context {periodic : bool} {a b : Q} {e : elem} {f : forest itv} {sf : option flag} {s : dofs} {dv : dverts} {L : list nat} {B : bmaps}.
Context {e' : elem} {sf' : option flag} {s' : dofs} {dv' : dverts} {B' : bmaps}.
Hypothesis U : in_use periodic a b e f sf s dv L B.
Hypothesis U' : in_use periodic a b e' f sf' s' dv' (snd B') B'.
Context {sl : list nat -> list nat} {der : deriv} {data data' : list (list Q)} {ns : nat} {xv : list Q}.
Hypothesis SL : set_order sl.
Hypothesis A : array_of (length L) ns data.
Hypothesis Ev : get_dof_vertices None dv' (map Some (snd B')) = Ok xv.
Hypothesis Ed : nodal_eval1 e f sf s sl None der (mkNodal B data) xv = Ok data'.

Lemma sampled : array_of (length (snd B')) ns data' /\
  forall t v, (t < ns)%nat -> nodal_values L data t v ->
    forall i x row, nth_error xv i = Some x -> nth_error data' i = Some row -> forall y, nth_error row t = Some y -> fe_value e f sf s v der x y.
Proof.
  pose proof (vertices_spec U' xv Ev) as F.
  destruct (C60_eval _ _ _ _ _ _ _ _ _ _ sl der data ns xv U SL A) as [R [ER [LR HR]]]; [intros x Hx; apply (vertex_in U' xv x Ev Hx)|].
  rewrite Ed in ER. injection ER as <-. split; [split|].
  - rewrite LR. symmetry. apply (f2_len _ _ _ F).
  - intros r Hr. apply In_nth_error in Hr. destruct Hr as [i Hi]. destruct (nth_error xv i) as [x|] eqn:Ex.
    + apply (HR i x r Ex Hi).
    + apply nth_error_None in Ex. assert (i < length data')%nat by (apply nth_error_Some; congruence). lia.
  - intros t v Ht V i x row Ex Er y Ey. destruct (HR i x row Ex Er) as [_ [p [Hp Hv]]]. exists p. split; auto.
    specialize (Hv t v Ht V). rewrite (nth_error_nth row t 0 Ey) in Hv. exact Hv.
Qed.
(** the interpolant has the values of the function at its nodes *)
Lemma sampled_values t v v' : (t < ns)%nat -> nodal_values L data t v -> nodal_values (snd B') data' t v' ->
  (periodic = true -> torn e' = false -> forall y, fe_value e f sf s v der a y <-> fe_value e f sf s v der b y) ->
  forall p k d z, In d (snd B') -> dof_at s' p k d -> position1 e' f p k z -> fe_value e f sf s v der z (v' d).
Proof.
  intros Ht V V' Z. destruct sampled as [A' S']. apply (vertex_rel U' xv data' t v' (fe_value e f sf s v der) Ev (proj1 A')); auto.
  - apply (S' t v Ht V).
  - intros x x' y y'. apply fe_value_der_proper.
Qed.
(** the polynomial of the interpolant in a leaf of the finer submesh *)
Lemma sampled_poly t v v' p' n' : (t < ns)%nat -> nodal_values L data t v -> nodal_values (snd B') data' t v' ->
  (periodic = true -> torn e' = false -> forall y, fe_value e f sf s v der a y <-> fe_value e f sf s v der b y) ->
  (forall x y y', fe_value e f sf s v der x y -> fe_value e f sf s v der x y' -> y == y') ->
  (degree e <= degree e')%nat -> finer f sf' sf -> fget f p' = Some n' -> is_leaf_of sf' n' ->
  exists p c c', sub_leaf f sf p /\ (forall x, fst (n_data n') <= x <= snd (n_data n') -> leaf_around f sf x p) /\
    local_poly e f s v p c /\ (forall x, poly_value der c x (poly c' x)) /\ local_poly e' f s' v' p' c'.
Proof.
  intros Ht V V' Z1 Z2 Dg Fi En' Ln'. destruct (Fi p' n' En' Ln') as [p [n [En [Ln [I1 I2]]]]].
  assert (Sp : sub_leaf f sf p) by (exists n; auto).
  assert (Ar : forall x, fst (n_data n') <= x <= snd (n_data n') -> leaf_around f sf x p) by (intros x X; exists n; split; auto; split; auto; lra).
  destruct (use_leaf_width U' p' n' En' Ln') as [W' _].
  (* a local polynomial exists *)
  assert (LP : exists c, local_poly e f s v p c).
  { destruct (use_leaf_width U p n En Ln) as [W [Wa Wb]].
    assert (Xm : fst (n_data n) <= (fst (n_data n) + snd (n_data n)) / 2 <= snd (n_data n)) by (split; [apply Qle_shift_div_l|apply Qle_shift_div_r]; lra).
    destruct (cell_dofs_filled s p _ (proj1 (use_filled U p (leaf_sub p Sp))) (proj2 (use_filled U p (leaf_sub p Sp)))) as [ds [_ [Lds [_ Hk]]]].
    destruct (shapes_row e f V0 p n _ En W Xm) as [row [Er _]].
    destruct (cell_value e f s v V0 p n ds row _ En W Xm Lds Hk Er) as [c [Lc _]]. exists c. exact Lc. }
  destruct LP as [c Lc]. destruct (poly_der der c (degree e) (proj1 Lc) (degree_3 e)) as [c' [Lc' P']].
  exists p, c, c'. split; auto. split; auto. split; auto. split; auto. split; [lia|].
  intros k d z Hd Pz. assert (Sp' : sub_leaf f sf' p') by (exists n'; auto).
  assert (HL : In d (snd B')) by (apply (use_L U'); eauto).
  pose proof (sampled_values t v v' Ht V V' Z1 p' k d z HL Hd Pz) as Hz.
  apply (Z2 z); auto. exists p. split.
  - apply Ar. destruct Pz as [n0 [r [En0 [Er ->]]]]. rewrite En' in En0. injection En0 as <-. destruct (Prop_Shape.C31_lagrange_1d e') as [_ LG]. destruct (LG k r Er) as [Ur _].
    unfold imap. clear -W' Ur. split; nra.
  - exists c. split; auto.
Qed.
End Interpolant.

(** ** C62 *)
(** interpolant(dofhandler', subforest_flag'): [e'] is the element of the new dof
    handler, [s0], [v0] its state.  At the nodes of its submesh the interpolant has
    the values of the function (values that are defined: the element is continuous) *)
Theorem C62_nodes periodic a b e f sf s dv L B set_list data ns e' sf' s0 v0 set_list' s' v' g xs :
  in_use periodic a b e f sf s dv L B -> set_order set_list -> array_of (length L) ns data -> torn e = false ->
  vertex_history any_submesh periodic a b e' f s0 v0 -> submesh_rooted f sf' -> set_order set_list' ->
  interpolant1 periodic e' f sf' (s0, v0) set_list' (nodal_eval1 e f sf s set_list None V0 (mkNodal B data)) = Ok (s', v', g) ->
  (forall x, In x xs -> exists p k, sub_leaf f sf' p /\ position1 e' f p k x) ->
  exists R R', nodal_eval1 e' f sf' s' set_list' None V0 g xs = Ok R' /\ nodal_eval1 e f sf s set_list None V0 (mkNodal B data) xs = Ok R /\
    length R = length xs /\ length R' = length xs /\
    forall j r r' t, nth_error R j = Some r -> nth_error R' j = Some r' -> (t < ns)%nat -> nth t r' 0 == nth t r 0.
Proof.
  intros U SL A NT VH Rt SL' E Hx. unfold interpolant1 in E.
  destruct (distribute_dofs periodic e' f sf' (s0, v0)) as [[s1 v1]|] eqn:E1; [|discriminate E]. cbn [bind fst snd] in E.
  destruct (make_basis1 f sf' s1 set_list') as [B'|] eqn:E2; [|discriminate E]. cbn [bind] in E.
  destruct (get_dof_vertices None v1 (map Some (snd B'))) as [xv|] eqn:E3; [|discriminate E]. cbn [bind] in E.
  destruct (nodal_eval1 e f sf s set_list None V0 (mkNodal B data) xv) as [data'|] eqn:E4; [|discriminate E]. cbn [bind] in E.
  unfold nodal_of_data in E. destruct (length data' =? length (snd B'))%nat; [|discriminate E]. cbn [bind] in E. injection E as <- <- <-.
  pose proof (use_make _ _ _ _ _ _ _ _ _ _ _ _ VH Rt E1 SL' E2) as U'. destruct (sampled U U' SL A E3 E4) as [A' _].
  assert (X : forall x, In x xs -> a <= x <= b).
  { intros x H. destruct (Hx x H) as [p [k [[n [En Ln]] [n' [r [En' [Er ->]]]]]]]. rewrite En in En'. injection En' as <-.
    destruct (use_leaf_width U' p n En Ln) as [W [A1 B1]]. destruct (Prop_Shape.C31_lagrange_1d e') as [_ LG]. destruct (LG k r Er) as [Ur _].
    unfold imap. clear -W Ur A1 B1. split; nra. }
  destruct (C60_eval _ _ _ _ _ _ _ _ _ _ set_list V0 data ns xs U SL A X) as [R [ER [LR HR]]].
  destruct (C60_eval _ _ _ _ _ _ _ _ _ _ set_list' V0 data' ns xs U' SL' A' X) as [R' [ER' [LR' HR']]].
  exists R, R'. split; auto. split; auto. split; auto. split; auto. intros j r r' t Er Er' Ht.
  destruct (nth_error xs j) as [x|] eqn:Ex; [|apply nth_error_None in Ex; assert (j < length R)%nat by (apply nth_error_Some; congruence); lia].
  destruct (HR j x r Ex Er) as [_ [p [Hp Hv]]]. destruct (HR' j x r' Ex Er') as [_ [p' [Hp' Hv']]].
  destruct (values_exist U data ns t A Ht) as [v V]. destruct (values_exist U' data' ns t A' Ht) as [v' V'].
  specialize (Hv t v Ht V). specialize (Hv' t v' Ht V').
  destruct (Hx x (nth_error_In _ _ Ex)) as [q [k [Sq Px]]].
  assert (Lk : (k < n_dofs D1 e')%nat) by (destruct Px as [n' [r0 [_ [Er0 _]]]]; rewrite <- nodes_len; apply nth_error_Some; congruence).
  destruct (node_value U' v' q k x p' _ Sq Lk Px Hp' Hv') as [i [d [z' [Hd [HL [Pz [Ez Ey]]]]]]].
  pose proof (sampled_values U U' SL A E3 E4 t v v' Ht V V' (fun P _ => ends_value U v P NT) p' i d z' HL Hd Pz) as Hz.
  rewrite Ey. apply (continuous_value U v x); auto; [|exists p; auto]. apply (fe_value_proper v z' x (v' d) (v' d) Ez); [reflexivity|auto].
Qed.
Print Assumptions C62_nodes.
(** if the new element has at least the degree, and every leaf of the new submesh
    lies in a leaf of the old one, then the interpolant is the same function:
    its values and derivatives are those of the given one *)
Theorem C62_same periodic a b e f sf s dv L B set_list data ns e' sf' s0 v0 set_list' s' v' g der xs :
  in_use periodic a b e f sf s dv L B -> set_order set_list -> array_of (length L) ns data -> torn e = false ->
  vertex_history any_submesh periodic a b e' f s0 v0 -> submesh_rooted f sf' -> set_order set_list' ->
  (degree e <= degree e')%nat -> finer f sf' sf ->
  interpolant1 periodic e' f sf' (s0, v0) set_list' (nodal_eval1 e f sf s set_list None V0 (mkNodal B data)) = Ok (s', v', g) ->
  (forall x, In x xs -> a <= x <= b) ->
  exists R', nodal_eval1 e' f sf' s' set_list' None der g xs = Ok R' /\ length R' = length xs /\
    forall j x r, nth_error xs j = Some x -> nth_error R' j = Some r -> length r = ns /\
      forall t v, (t < ns)%nat -> nodal_values L data t v -> fe_value e f sf s v der x (nth t r 0).
Proof.
  intros U SL A NT VH Rt SL' Dg Fi E X. unfold interpolant1 in E.
  destruct (distribute_dofs periodic e' f sf' (s0, v0)) as [[s1 v1]|] eqn:E1; [|discriminate E]. cbn [bind fst snd] in E.
  destruct (make_basis1 f sf' s1 set_list') as [B'|] eqn:E2; [|discriminate E]. cbn [bind] in E.
  destruct (get_dof_vertices None v1 (map Some (snd B'))) as [xv|] eqn:E3; [|discriminate E]. cbn [bind] in E.
  destruct (nodal_eval1 e f sf s set_list None V0 (mkNodal B data) xv) as [data'|] eqn:E4; [|discriminate E]. cbn [bind] in E.
  unfold nodal_of_data in E. destruct (length data' =? length (snd B'))%nat; [|discriminate E]. cbn [bind] in E. injection E as <- <- <-.
  pose proof (use_make _ _ _ _ _ _ _ _ _ _ _ _ VH Rt E1 SL' E2) as U'. destruct (sampled U U' SL A E3 E4) as [A' _].
  destruct (C60_eval _ _ _ _ _ _ _ _ _ _ set_list' der data' ns xs U' SL' A' X) as [R' [ER' [LR' HR']]].
  exists R'. split; auto. split; auto. intros j x r Ex Er. destruct (HR' j x r Ex Er) as [Lr [p' [Hp' Hv']]]. split; auto.
  intros t v Ht V. destruct (values_exist U' data' ns t A' Ht) as [v' V']. specialize (Hv' t v' Ht V').
  pose proof Hp' as [n' [En' [Ln' Xn']]].
  destruct (sampled_poly U U' SL A E3 E4 t v v' p' n' Ht V V' (fun P _ => ends_value U v P NT) (fun x y y' => continuous_value U v x y y' NT) Dg Fi En' Ln')
    as [p [c [c' [Sp [Ar [Lc [Pc Lc']]]]]]].
  exists p. split; [apply Ar; auto|]. exists c. split; auto. cbn [poly_value] in Pc.
  destruct (poly_der der c (degree e) (proj1 Lc) (degree_3 e)) as [c2 [_ P2]].
  destruct (poly_der der c' (degree e') (proj1 Lc') (degree_3 e')) as [c3 [_ P3]].
  apply (poly_value_proper der c x (poly c2 x)); [|apply P2].
  rewrite (poly_value_fun der c c' x (poly c2 x) (poly c3 x) (fun z => Qeq_sym _ _ (Pc z)) (P2 x) (P3 x)).
  apply (value_in_unique U' v' der p' x); [exists n'; auto| |exact Hv']. exists c'. split; auto.
Qed.
Print Assumptions C62_same.

(** ** C63 *)
(** differentiate(derivative): nodal values of the derivative for the torn
    element.  If the derivative has one value at each point (it does not jump),
    the result is the derivative; its own derivative is the second derivative *)
Theorem C63_derivative periodic a b e f s dv L B set_list data ns set_list' s' v' g der xs :
  in_use periodic a b e f None s dv L B -> set_order set_list -> array_of (length L) ns data -> set_order set_list' ->
  differentiate1 periodic e f None set_list' (nodal_eval1 e f None s set_list None der (mkNodal B data)) = Ok (s', v', g) ->
  (forall x, In x xs -> a <= x <= b) ->
  exists R, nodal_eval1 (tear e) f None s' set_list' None V0 g xs = Ok R /\ length R = length xs /\
  exists R1, nodal_eval1 (tear e) f None s' set_list' None (V1 0) g xs = Ok R1 /\ length R1 = length xs /\
    forall j x r r1, nth_error xs j = Some x -> nth_error R j = Some r -> nth_error R1 j = Some r1 -> length r = ns /\ length r1 = ns /\
      forall t v, (t < ns)%nat -> nodal_values L data t v ->
        (forall x y y', fe_value e f None s v der x y -> fe_value e f None s v der x y' -> y == y') ->
        fe_value e f None s v der x (nth t r 0) /\
        forall i, der = V1 i -> fe_value e f None s v (V2 i i) x (nth t r1 0).
Proof.
  intros U SL A SL' E X. unfold differentiate1 in E.
  destruct (distribute_dofs periodic (tear e) f None (no_dofs, [])) as [[s1 v1]|] eqn:E1; [|discriminate E]. cbn [bind fst snd] in E.
  destruct (make_basis1 f None s1 set_list') as [B'|] eqn:E2; [|discriminate E]. cbn [bind] in E.
  destruct (region_dofs f None s1) as [l|] eqn:El; [|discriminate E]. cbn [bind] in E.
  assert (EB : snd B' = set_list' (flat_map (fun o => match o with Some d => [d] | None => [] end) l)).
  { unfold make_basis1 in E2. rewrite El in E2. cbn [bind] in E2. apply basis_snd in E2. exact E2. }
  rewrite <- EB in E.
  destruct (get_dof_vertices None v1 (map Some (snd B'))) as [xv|] eqn:E3; [|discriminate E]. cbn [bind] in E.
  destruct (nodal_eval1 e f None s set_list None der (mkNodal B data) xv) as [data'|] eqn:E4; [|discriminate E]. cbn [bind] in E.
  unfold nodal_of_data in E. destruct (length data' =? length (snd B'))%nat; [|discriminate E]. cbn [bind] in E. injection E as <- <- <-.
  assert (TT : torn (tear e) = true) by (destruct e; reflexivity). assert (DD : degree (tear e) = degree e) by (destruct e; reflexivity).
  assert (M : mesh1d periodic a b (tear e) f).
  { destruct (use_mesh U) as [M1 [M2 [M3 _]]]. split; auto. split; auto. split; auto. intros _ Z. congruence. }
  pose proof (use_make _ _ _ _ _ _ _ _ _ _ _ _ (VH_start any_submesh _ _ _ _ _ M) (Logic.I : submesh_rooted f None) E1 SL' E2) as U'. destruct (sampled U U' SL A E3 E4) as [A' _].
  assert (Fi : finer f None None) by (intros p' n' H1 H2; exists p', n'; split; auto; split; auto; lra).
  destruct (C60_eval _ _ _ _ _ _ _ _ _ _ set_list' V0 data' ns xs U' SL' A' X) as [R [ER [LR HR]]].
  destruct (C60_eval _ _ _ _ _ _ _ _ _ _ set_list' (V1 0) data' ns xs U' SL' A' X) as [R1 [ER1 [LR1 HR1]]].
  exists R. split; auto. split; auto. exists R1. split; auto. split; auto. intros j x r r1 Ex Er Er1.
  destruct (HR j x r Ex Er) as [Lr [p' [Hp' Hv']]]. destruct (HR1 j x r1 Ex Er1) as [Lr1 [p1 [Hp1 Hv1]]]. split; auto. split; auto.
  intros t v Ht V SV. destruct (values_exist U' data' ns t A' Ht) as [v' V']. specialize (Hv' t v' Ht V'). specialize (Hv1 t v' Ht V').
  assert (Dg : (degree e <= degree (tear e))%nat) by lia.
  assert (NP : periodic = true -> torn (tear e) = false -> forall y, fe_value e f None s v der a y <-> fe_value e f None s v der b y) by (intros _ Z; congruence).
  split.
  - pose proof Hp' as [n' [En' [Ln' Xn']]].
    destruct (sampled_poly U U' SL A E3 E4 t v v' p' n' Ht V V' NP SV Dg Fi En' Ln') as [p [c [c' [Sp [Ar [Lc [Pc Lc']]]]]]].
    exists p. split; [apply Ar; auto|]. exists c. split; auto. apply (poly_value_proper der c x (poly c' x)); [|apply Pc].
    apply (value_in_unique U' v' V0 p' x); [exists n'; auto| |exact Hv']. exists c'. split; auto. reflexivity.
  - intros i ->. pose proof Hp1 as [n' [En' [Ln' Xn']]].
    destruct (sampled_poly U U' SL A E3 E4 t v v' p1 n' Ht V V' NP SV Dg Fi En' Ln') as [p [c [c' [Sp [Ar [Lc [Pc Lc']]]]]]].
    exists p. split; [apply Ar; auto|]. exists c. split; auto. exists (poly c'). split; [exact Pc|].
    destruct (poly_der (V1 0) c' (degree (tear e)) (proj1 Lc') (degree_3 (tear e))) as [c3 [_ P3]].
    apply (poly_value_proper (V1 0) c' x (poly c3 x)); [|apply P3].
    apply (value_in_unique U' v' (V1 0) p1 x); [exists n'; auto| |exact Hv1]. exists c'. split; auto.
Qed.
Print Assumptions C63_derivative.
(** where the derivative cannot jump: inside of the data of a polynomial *)
Theorem C63_polynomial periodic a b e f sf s dv L B v c der x y y' :
  in_use periodic a b e f sf s dv L B -> (length c <= S (degree e))%nat ->
  (forall p k d z, sub_leaf f sf p -> dof_at s p k d -> position1 e f p k z -> v d == poly c z) ->
  fe_value e f sf s v der x y -> fe_value e f sf s v der x y' -> y == y' /\ poly_value der c x y.
Proof.
  intros U Lc Hv [p [Hp Vp]] [q [Hq Vq]].
  assert (Sp : sub_leaf f sf p) by (destruct Hp as [n [En [Ln _]]]; exists n; auto).
  assert (Sq : sub_leaf f sf q) by (destruct Hq as [n [En [Ln _]]]; exists n; auto).
  assert (Lp : forall p, sub_leaf f sf p -> local_poly e f s v p c).
  { intros p0 S0. split; auto. intros k d z Hd Pz. symmetry. apply (Hv p0 k d z); auto. }
  destruct (poly_der der c (degree e) Lc (degree_3 e)) as [c' [_ P']].
  assert (Ey : y == poly c' x) by (apply (value_in_unique U v der p x); auto; exists c; split; auto).
  assert (Ey' : y' == poly c' x) by (apply (value_in_unique U v der q x); auto; exists c; split; auto).
  split; [rewrite Ey, Ey'; reflexivity|]. apply (poly_value_proper der c x (poly c' x)); [symmetry; auto|apply P'].
Qed.
Print Assumptions C63_polynomial.

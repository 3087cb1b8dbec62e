(** * Nodal functions on 1D meshes: construction of the basis and of the data *)
From Coq Require Import List Arith Bool Lia Permutation QArith Lqa Qfield.
From Verif Require Import Tree Forest SpecForest History TreeFacts ForestFacts GenFacts Geom SpecGeom Mesh1D Fem SpecFem ShapeFacts
  Dof SpecDof DofVert SpecDofVert Basis Solver Nodal NodalFacts Nodal1 SpecNodal Nodal1Facts Nodal1Main Nodal1Interp.
From Verif Require Prop_Dof1D Prop_DofVert Prop_Shape DofVertHist DofVertFacts.
Import ListNotations.
Open Scope Q_scope.

Definition somes (l : list (option nat)) : list nat := flat_map (fun o => match o with Some d => [d] | None => [] end) l.
Lemma in_somes l d : In d (somes l) <-> In (Some d) l.
Proof.
  unfold somes. rewrite in_flat_map. split.
  - intros [[x|] [H1 H2]]; cbn in H2; [destruct H2 as [->|[]]; auto|destruct H2].
  - intro H. exists (Some d). split; auto. left; reflexivity.
Qed.
Lemma basis_snd L B : basis_init L = Ok B -> snd B = L.
Proof.
  intro H. unfold basis_init in H. destruct L as [|d0 L0]; [discriminate H|].
  match type of H with bind ?X _ = _ => destruct X as [acc|]; [|discriminate H] end. cbn [bind] in H. injection H as <-. reflexivity.
Qed.
Lemma use_make periodic a b e f sf s0 v0 s v sl B : vertex_history any_submesh periodic a b e f s0 v0 -> submesh_rooted f sf ->
  distribute_dofs periodic e f sf (s0, v0) = Ok (s, v) -> set_order sl -> make_basis1 f sf s sl = Ok B ->
  in_use periodic a b e f sf s v (snd B) B.
Proof.
  intros H R E SL EB. unfold make_basis1 in EB. destruct (region_dofs f sf s) as [l|] eqn:El; [|discriminate EB]. cbn [bind] in EB. fold (somes l) in EB.
  destruct (SL (somes l)) as [N I0]. rewrite (basis_snd _ _ EB). constructor; auto.
  - exists s0, v0. auto.
  - exists l. split; auto. intro d. rewrite I0. apply in_somes.
Qed.

(** vertices of a list of dofs *)
Lemma vertices_total v ds : (forall d, In d ds -> has_vertex v d) -> exists xs, get_dof_vertices None v (map Some ds) = Ok xs.
Proof.
  intro H. unfold get_dof_vertices.
  assert (G : forall ds acc, (forall d, In d ds -> has_vertex v d) -> exists xs, fold_res (fun acc d => bind (dof_vertex None v d) (fun x => Ok (acc ++ x))) (map Some ds) acc = Ok xs).
  { clear. induction ds as [|d ds IH]; intros acc H; cbn [map fold_res]; [eauto|]. destruct (H d (or_introl eq_refl)) as [x E].
    unfold get_dof_vertices in E. cbn [fold_res] in E. destruct (dof_vertex None v (Some d)) as [y|]; [|discriminate E]. cbn [bind]. apply IH. intros d' H'. apply H. right; auto. }
  apply G; auto.
Qed.

Section Use4.
Context {periodic : bool} {a b : Q} {e : elem} {f : forest itv} {sf : option flag} {s : dofs} {dv : dverts} {L : list nat} {B : bmaps}.
Hypothesis U : in_use periodic a b e f sf s dv L B.

(** every dof of the submesh has a node in a leaf; the value there *)
Lemma from_values fs nd : nodal_from1 dv B fs = Ok nd -> nd_basis nd = B /\ array_of (length L) (length fs) (nd_data nd) /\
  forall t g v, nth_error fs t = Some g -> proper g -> (periodic = true -> torn e = false -> g a == g b) -> nodal_values L (nd_data nd) t v ->
    forall p k d z, In d L -> dof_at s p k d -> position1 e f p k z -> v d == g z.
Proof.
  intro E. unfold nodal_from1 in E. rewrite (use_snd U) in E. destruct (get_dof_vertices None dv (map Some L)) as [xv|] eqn:Ev; [|discriminate E].
  cbn [bind] in E. injection E as <-. unfold nodal_of_function. cbn [nd_basis nd_data]. pose proof (vertices_spec U xv Ev) as F. split; auto. split.
  - split; [rewrite map_length; symmetry; apply (f2_len _ _ _ F)|]. intros r H. apply in_map_iff in H. destruct H as [y [<- _]]. apply map_length.
  - intros t g v Eg Pg Ag V. apply (vertex_values U xv (map (fun y => map (fun h => h y) fs) xv) t v g F); auto.
    + clear -Eg Pg. induction xv as [|x xv IH]; cbn [map]; constructor; auto. intros y Ey. rewrite nth_error_map, Eg in Ey. cbn in Ey. injection Ey as <-. reflexivity.
    + rewrite map_length. symmetry. apply (f2_len _ _ _ F).
Qed.
(** data given at the vertices by an evaluation *)
Lemma data_values xv data t v (g : Q -> Q) : get_dof_vertices None dv (map Some L) = Ok xv -> length data = length L ->
  (forall i x row, nth_error xv i = Some x -> nth_error data i = Some row -> forall y, nth_error row t = Some y -> y == g x) ->
  proper g -> (periodic = true -> torn e = false -> g a == g b) -> nodal_values L data t v ->
  forall p k d z, In d L -> dof_at s p k d -> position1 e f p k z -> v d == g z.
Proof.
  intros Ev Ld H Pg Ag V. pose proof (vertices_spec U xv Ev) as F. apply (vertex_values U xv data t v g F); auto.
  assert (Lx : length xv = length data) by (rewrite <- (f2_len _ _ _ F); auto).
  clear -H Lx. revert data H Lx. induction xv as [|x xv IH]; intros [|row data] H Lx; try discriminate; constructor.
  - apply (H 0%nat x row eq_refl eq_refl).
  - apply IH; [|cbn in Lx; congruence]. intros i. apply (H (S i)).
Qed.
Lemma vertex_rel xv data t v (R : Q -> Q -> Prop) : get_dof_vertices None dv (map Some L) = Ok xv -> length data = length L ->
  (forall i x row, nth_error xv i = Some x -> nth_error data i = Some row -> forall y, nth_error row t = Some y -> R x y) ->
  (forall x x' y y', x == x' -> y == y' -> R x y -> R x' y') -> (periodic = true -> torn e = false -> forall y, R a y <-> R b y) -> nodal_values L data t v ->
  forall p k d z, In d L -> dof_at s p k d -> position1 e f p k z -> R z (v d).
Proof.
  intros Ev Ld H PR AR V p k d z Hd Hk Pz. pose proof (vertices_spec U xv Ev) as F.
  apply In_nth_error in Hd. destruct Hd as [i Ei].
  destruct (nth_error xv i) as [x|] eqn:Ex.
  2:{ apply nth_error_None in Ex. rewrite <- (f2_len _ _ _ F) in Ex. assert (i < length L)%nat by (apply nth_error_Some; congruence). lia. }
  destruct (nth_error data i) as [row|] eqn:Er.
  2:{ apply nth_error_None in Er. assert (i < length L)%nat by (apply nth_error_Some; congruence). lia. }
  assert (Hx : exists p k, dof_at s p k d /\ position1 e f p k x).
  { clear -F Ei Ex. revert i Ei Ex. induction F as [|d' x' l l' H F IH]; intros [|i] Ei Ex; cbn in Ei, Ex; try discriminate; [injection Ei as <-; injection Ex as <-; exact H|eauto]. }
  destruct (V i d row Ei Er) as [y [Ey Evy]]. pose proof (H i x row Ex Er y Ey) as Rxy. destruct Hx as [p' [k' [Hd' Px]]].
  destruct (one_place U _ _ _ _ _ _ _ Hd' Px Hk Pz) as [E|[E1 [E2 [[X1 X2]|[X1 X2]]]]].
  - apply (PR x z y (v d) E); [symmetry|]; auto.
  - apply (PR b z y (v d)); [symmetry; auto|symmetry; auto|]. apply (AR E1 E2). apply (PR x a y y X1); [reflexivity|auto].
  - apply (PR a z y (v d)); [symmetry; auto|symmetry; auto|]. apply (AR E1 E2). apply (PR x b y y X1); [reflexivity|auto].
Qed.
Lemma use_numbered : numbered s.
Proof.
  destruct (iu_hist _ _ _ _ _ _ _ _ _ _ U) as [s0 [v0 [H E]]].
  destruct (DofVertHist.vertex_dof _ _ _ _ _ _ _ _ H) as [H0 _].
  destruct (Prop_Dof1D.C33_distribute _ _ _ _ _ _ sf H0 (iu_rooted _ _ _ _ _ _ _ _ _ _ U)) as [s1 [E1 [_ [N _]]]].
  unfold distribute_dofs in E. cbn [fst snd] in E. rewrite E1 in E. cbn [bind] in E.
  destruct (set_dof_vertices e f sf s1 v0) as [v1|]; [|discriminate E]. cbn [bind] in E. injection E as <- <-. exact N.
Qed.
Lemma fe_value_proper v x x' y y' : x == x' -> y == y' -> fe_value e f sf s v V0 x y -> fe_value e f sf s v V0 x' y'.
Proof.
  intros Ex Ey [p [[n [En [Ln Xn]]] [c [Lc Vc]]]]. exists p. split; [exists n; split; auto; split; auto; lra|]. exists c. split; auto. cbn in *.
  rewrite <- Ey, Vc. apply poly_proper. exact Ex.
Qed.
Lemma fe_value_der_proper v der x x' y y' : x == x' -> y == y' -> fe_value e f sf s v der x y -> fe_value e f sf s v der x' y'.
Proof.
  intros Ex Ey [p [[n [En [Ln Xn]]] [c [Lc Vc]]]]. exists p. split; [exists n; split; auto; split; auto; lra|]. exists c. split; auto.
  apply (poly_value_proper der c x' y y' Ey). destruct (poly_der der c (degree e) (proj1 Lc) (degree_3 e)) as [c' [_ P']].
  apply (poly_value_proper der c x' (poly c' x') y); [|apply P'].
  rewrite <- (poly_proper c' _ _ Ex). apply (poly_value_fun der c c x); [intro; reflexivity|apply P'|exact Vc].
Qed.
Lemma vertex_in xv x : get_dof_vertices None dv (map Some L) = Ok xv -> In x xv -> a <= x <= b.
Proof.
  intros Ev Hx. pose proof (vertices_spec U xv Ev) as F.
  assert (K : exists d, In d L /\ exists p k, dof_at s p k d /\ position1 e f p k x).
  { clear -F Hx. induction F as [|d y l l' H F IH]; [destruct Hx|]. destruct Hx as [->|Hx].
    - exists d. split; [left; reflexivity|auto].
    - destruct (IH Hx) as [d' [H1 H2]]. exists d'. split; [right|]; auto. }
  destruct K as [d [Hd [p [k [Hk Px]]]]].
  destruct (proj1 (use_L U d) Hd) as [q [j [Sq Hj]]]. destruct Sq as [m [Em Lm]].
  pose proof (slot_lt U q j d ltac:(exists m; auto) Hj) as Lj. destruct (node_nth e j Lj) as [r [Er _]].
  destruct (use_leaf_width U q m Em Lm) as [W [A1 B1]].
  assert (Pz : position1 e f q j (imap (n_data m) r)) by (exists m, r; auto).
  assert (Xz : a <= imap (n_data m) r <= b).
  { destruct (Prop_Shape.C31_lagrange_1d e) as [_ LG]. destruct (LG j r Er) as [Ur _]. unfold imap. clear -W Ur A1 B1. split; nra. }
  assert (AB : a <= b) by lra.
  destruct (one_place U _ _ _ _ _ _ _ Hk Px Hj Pz) as [E|[_ [_ [[E _]|[E _]]]]]; lra.
Qed.
Lemma vertex_node xv i x : get_dof_vertices None dv (map Some L) = Ok xv -> nth_error xv i = Some x ->
  exists d, nth_error L i = Some d /\ exists p k, dof_at s p k d /\ position1 e f p k x.
Proof.
  intros Ev Hx. pose proof (vertices_spec U xv Ev) as F. clear -F Hx. revert i Hx. induction F as [|d y l l' H F IH]; intros [|i] Hx; cbn in Hx; try discriminate.
  - injection Hx as <-. exists d. split; auto.
  - apply (IH i Hx).
Qed.
End Use4.

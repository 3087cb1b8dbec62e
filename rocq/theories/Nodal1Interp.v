(** * Nodal functions on 1D meshes: continuity, interpolation, derivatives *)
From Coq Require Import List Arith Bool Lia Permutation QArith Lqa Qfield.
From Verif Require Import Tree Forest SpecForest History TreeFacts ForestFacts GenFacts Geom SpecGeom IntervalFacts Mesh1D Fem SpecFem ShapeFacts
  Dof SpecDof DofVert SpecDofVert Basis Solver Nodal NodalFacts Nodal1 SpecNodal Nodal1Facts Nodal1Main.
From Verif Require Prop_Bin Prop_Dof1D Prop_DofVert Prop_Shape DofVertHist DofVertFacts Dof1DHist.
Import ListNotations.
Open Scope Q_scope.

(** two intervals of a tiling that share a point are the same or neighbours *)
Lemma tiles_share a b l c d x : tiles a b l -> In c l -> In d l -> fst c <= x <= snd c -> fst d <= x <= snd d ->
  c = d \/ (x == snd c /\ x == fst d) \/ (x == fst c /\ x == snd d).
Proof.
  revert a. induction l as [|k l IH]; intros a T Hc Hd Xc Xd; [destruct Hc|]. destruct T as [T1 [T2 T3]].
  destruct Hc as [->|Hc], Hd as [->|Hd].
  - left; reflexivity.
  - destruct (tiles_mem _ _ _ _ T3 Hd) as [_ [M _]]. right. left. split; lra.
  - destruct (tiles_mem _ _ _ _ T3 Hc) as [_ [M _]]. right. right. split; lra.
  - eapply IH; eauto.
Qed.
Lemma nodes_ends e : degree e <> 0%nat -> exists r0 r1, nth_error (reference_nodes1 e) 0 = Some r0 /\ nth_error (reference_nodes1 e) 1 = Some r1 /\ r0 == 0 /\ r1 == 1.
Proof. intro H. destruct e; cbn in H; try congruence; do 2 eexists; vm_compute; repeat split; reflexivity. Qed.
Lemma node_nth e k : (k < n_dofs D1 e)%nat -> exists r, nth_error (reference_nodes1 e) k = Some r /\ r == ndi e k.
Proof.
  intro H. destruct (nodes1_nth e k H) as [r [E Eq]]. exists r. split; auto. unfold at_ in E. destruct (nth_error (reference_nodes1 e) k); congruence.
Qed.
Lemma nodes_len e : length (reference_nodes1 e) = n_dofs D1 e.
Proof. destruct e; reflexivity. Qed.
Lemma dq0_inner r : nth_error (reference_nodes1 DQ0) 0 = Some r -> 0 < r < 1.
Proof. intro H. vm_compute in H. injection H as <-. split; reflexivity. Qed.
Lemma torn_degree e : torn e = false -> degree e <> 0%nat.
Proof. destruct e; cbn; congruence. Qed.
Lemma poly_value_proper der c x y y' : y == y' -> poly_value der c x y -> poly_value der c x y'.
Proof.
  intros Eq V. destruct der as [|i|i j]; cbn [poly_value] in *.
  - rewrite <- Eq. exact V.
  - intros eps He. destruct (V eps He) as [dl [Hdl Bd]]. exists dl. split; auto. intros h Hh. rewrite <- Eq. auto.
  - destruct V as [g [Vg V]]. exists g. split; auto. intros eps He. destruct (V eps He) as [dl [Hdl Bd]]. exists dl. split; auto. intros h Hh. rewrite <- Eq. auto.
Qed.
(** derivatives of equal functions *)
Lemma deriv_ext f g x d : (forall y, f y == g y) -> deriv_at f x d -> deriv_at g x d.
Proof. intros E V eps He. destruct (V eps He) as [dl [Hdl Bd]]. exists dl. split; auto. intros h Hh. rewrite <- !E. auto. Qed.
Lemma poly_value_fun der c c' x y y' : (forall z, poly c z == poly c' z) -> poly_value der c x y -> poly_value der c' x y' -> y == y'.
Proof.
  intros E V V'. destruct der as [|i|i j]; cbn [poly_value] in *.
  - rewrite V, V'. apply E.
  - eapply Prop_Shape.C31_derivative_unique; [|exact V']. eapply deriv_ext; eauto.
  - destruct V as [g [Vg V]], V' as [g' [Vg' V']]. eapply Prop_Shape.C31_derivative_unique; [|exact V']. eapply deriv_ext; [|exact V].
    intro z. eapply Prop_Shape.C31_derivative_unique; [|apply Vg']. eapply deriv_ext; [|apply Vg]. auto.
Qed.
(** the derivative of a polynomial of degree at most 3 *)
Lemma poly_deriv c m : (length c <= S m)%nat -> (m <= 3)%nat -> exists c', (length c' <= S m)%nat /\ forall x, deriv_at (poly c) x (poly c' x).
Proof.
  intros L M. set (q := (nth 0 c 0, nth 1 c 0, nth 2 c 0, nth 3 c 0) : quad4).
  assert (E : forall x, poly c x == 1 * cub q x).
  { intro x. unfold q, cub. do 4 (destruct c as [|? c]; [cbn; ring|]). destruct c; [cbn; ring|cbn in L; lia]. }
  exists (firstn m [nth 1 c 0; 2 * nth 2 c 0; 3 * nth 3 c 0]). split; [rewrite firstn_length; cbn; lia|].
  intro x. apply (deriv_cub _ q 1); auto. unfold q, cub_x.
  destruct m as [|[|[|m]]]; cbn [firstn poly].
  - rewrite !(nth_overflow c) by lia. ring.
  - rewrite (nth_overflow c (n := 2)), (nth_overflow c (n := 3)) by lia. ring.
  - rewrite (nth_overflow c (n := 3)) by lia. ring.
  - destruct m; cbn [firstn poly]; ring.
Qed.
Lemma degree_3 e : (degree e <= 3)%nat. Proof. destruct e; cbn; lia. Qed.
(** the polynomial of the derivative *)
Lemma poly_der der c m : (length c <= S m)%nat -> (m <= 3)%nat -> exists c', (length c' <= S m)%nat /\ forall x, poly_value der c x (poly c' x).
Proof.
  intros L M. destruct der as [|i|i j]; cbn [poly_value].
  - exists c. split; [auto|reflexivity].
  - apply poly_deriv; auto.
  - destruct (poly_deriv c m L M) as [c1 [L1 D1]]. destruct (poly_deriv c1 m L1 M) as [c2 [L2 D2]]. exists c2. split; auto.
    intro x. exists (poly c1). split; auto.
Qed.

Lemma f2_len {X Y} (R : X -> Y -> Prop) l l' : Forall2 R l l' -> length l = length l'.
Proof. induction 1; cbn; congruence. Qed.

Section Use2.
Context {periodic : bool} {a b : Q} {e : elem} {f : forest itv} {sf : option flag} {s : dofs} {dv : dverts} {L : list nat} {B : bmaps}.
Hypothesis U : in_use periodic a b e f sf s dv L B.

Lemma use_share x p q n m : fget f p = Some n -> is_leaf_of sf n -> fget f q = Some m -> is_leaf_of sf m ->
  fst (n_data n) <= x <= snd (n_data n) -> fst (n_data m) <= x <= snd (n_data m) ->
  n_data n = n_data m \/ (x == snd (n_data n) /\ x == fst (n_data m)) \/ (x == fst (n_data n) /\ x == snd (n_data m)).
Proof.
  intros En Ln Em Lm Xn Xm. destruct (use_mesh U) as [[l [P R]] [T _]].
  pose proof (Prop_Bin.C16_leaves_tile l f sf a b P R (iu_rooted _ _ _ _ _ _ _ _ _ _ U) T) as TL.
  apply (tiles_share _ _ _ _ _ _ TL); auto; apply in_map_iff; [exists (p, n)|exists (q, m)]; (split; [reflexivity|]); apply in_fget_leaves; cbn; auto.
Qed.
Lemma use_slot p k : sub_leaf f sf p -> (k < n_dofs D1 e)%nat -> exists d, dof_at s p k d /\ In d L.
Proof.
  intros Hp Hk. destruct (use_filled U p (leaf_sub p Hp)) as [[l [_ [_ F]]] _]. destruct (F k Hk) as [d Hd]. exists d. split; auto.
  apply (use_L U). eauto.
Qed.
Lemma slot_lt p k d : sub_leaf f sf p -> dof_at s p k d -> (k < n_dofs D1 e)%nat.
Proof.
  intros Hp [l [E H]]. destruct (use_filled U p (leaf_sub p Hp)) as [[l' [E' [Ll _]]] _]. rewrite E in E'. injection E' as <-.
  rewrite <- Ll. apply nth_error_Some. congruence.
Qed.
(** a node of a leaf is a node of every leaf that contains it *)
Lemma node_everywhere p k z q : sub_leaf f sf p -> (k < n_dofs D1 e)%nat -> position1 e f p k z -> leaf_around f sf z q ->
  exists j z', (j < n_dofs D1 e)%nat /\ position1 e f q j z' /\ z' == z.
Proof.
  intros [n [En Ln]] Hk [n' [r [En' [Er ->]]]] [m [Em [Lm Xm]]]. rewrite En in En'. injection En' as <-.
  destruct (use_leaf_width U p n En Ln) as [W _]. destruct (use_leaf_width U q m Em Lm) as [Wm _].
  destruct (Prop_Shape.C31_lagrange_1d e) as [Lr LG]. destruct (LG k r Er) as [Ur _].
  assert (Xn : fst (n_data n) <= imap (n_data n) r <= snd (n_data n)). { unfold imap. clear -W Ur. split; nra. }
  destruct (use_share _ p q n m En Ln Em Lm Xn Xm) as [Ed|Ed].
  - exists k, (imap (n_data m) r). split; auto. split; [exists m, r; auto|rewrite Ed; reflexivity].
  - destruct (Nat.eq_dec (degree e) 0) as [Z|NZ].
    + exfalso. assert (Ee : e = DQ0) by (destruct e; cbn in Z; try discriminate; auto). subst e.
      assert (k = 0%nat) by (cbn in Hk; lia). subst k. pose proof (dq0_inner r Er) as [I0 I1]. unfold imap in Ed. clear -Ed I0 I1 W. destruct Ed as [[Ed _]|[Ed _]]; nra.
    + destruct (nodes_ends e NZ) as [r0 [r1 [E0 [E1 [Q0 Q1]]]]].
      assert (L1 : (1 < n_dofs D1 e)%nat) by (rewrite <- nodes_len; apply nth_error_Some; congruence).
      destruct Ed as [[_ Ed]|[_ Ed]].
      * exists 0%nat, (imap (n_data m) r0). split; [lia|]. split; [exists m, r0; auto|]. rewrite Ed. unfold imap. rewrite Q0. ring.
      * exists 1%nat, (imap (n_data m) r1). split; [lia|]. split; [exists m, r1; auto|]. rewrite Ed. unfold imap. rewrite Q1. ring.
Qed.
(** a point that is in two leaves is a node of both, unless they are the same interval *)
Lemma same_poly v p q c c' : torn e = false -> sub_leaf f sf p -> sub_leaf f sf q -> local_poly e f s v p c -> local_poly e f s v q c' ->
  forall x, leaf_around f sf x p -> leaf_around f sf x q -> poly c x == poly c' x.
Proof.
  intros NT Hp Hq Lc Lc' x [n [En [Ln Xn]]] [m [Em [Lm Xm]]].
  destruct (use_leaf_width U p n En Ln) as [W _]. destruct (use_leaf_width U q m Em Lm) as [Wm _].
  destruct (nodes_ends e (torn_degree e NT)) as [r0 [r1 [E0 [E1 [Q0 Q1]]]]].
  assert (L1 : (1 < n_dofs D1 e)%nat) by (rewrite <- nodes_len; apply nth_error_Some; congruence).
  (* nodes at the same place have the same value *)
  assert (K : forall k j r r', nth_error (reference_nodes1 e) k = Some r -> nth_error (reference_nodes1 e) j = Some r' ->
     imap (n_data n) r == imap (n_data m) r' -> poly c (imap (n_data n) r) == poly c' (imap (n_data m) r')).
  { intros k j r r' Ek Ej Eq.
    destruct (use_slot p k Hp) as [d [Hd _]]; [rewrite <- nodes_len; apply nth_error_Some; congruence|].
    destruct (use_slot q j Hq) as [d' [Hd' _]]; [rewrite <- nodes_len; apply nth_error_Some; congruence|].
    assert (P1 : position1 e f p k (imap (n_data n) r)) by (exists n, r; auto).
    assert (P2 : position1 e f q j (imap (n_data m) r')) by (exists m, r'; auto).
    assert (d = d') by (apply (Prop_Dof1D.C34_continuous _ _ _ _ _ _ _ _ _ _ _ _ _ _ (use_dof U) NT Hd Hd' P1 P2); left; exact Eq). subst d'.
    destruct Lc as [_ Vc], Lc' as [_ Vc']. rewrite (Vc k d _ Hd P1), (Vc' j d _ Hd' P2). reflexivity. }
  destruct (use_share x p q n m En Ln Em Lm Xn Xm) as [Ed|[[Ea Eb]|[Ea Eb]]].
  - rewrite (poly_nodes e (n_data n) c x W (proj1 Lc)), (poly_nodes e (n_data n) c' x W (proj1 Lc')). apply sumQ_map_ext. intros k Hk. apply in_seq in Hk.
    destruct (node_nth e k) as [r [Er Eq]]; [lia|].
    assert (Ez : imap (n_data n) (ndi e k) == imap (n_data n) r) by (unfold imap; rewrite Eq; reflexivity).
    rewrite (poly_proper c _ _ Ez), (poly_proper c' _ _ Ez). rewrite (K k k r r Er Er ltac:(rewrite Ed; reflexivity)). rewrite Ed. reflexivity.
  - assert (X1 : x == imap (n_data n) r1) by (rewrite Ea; unfold imap; rewrite Q1; ring).
    assert (X2 : x == imap (n_data m) r0) by (rewrite Eb; unfold imap; rewrite Q0; ring).
    rewrite (poly_proper c _ _ X1), (poly_proper c' _ _ X2). apply (K 1%nat 0%nat); auto. rewrite <- X1, X2. reflexivity.
  - assert (X1 : x == imap (n_data n) r0) by (rewrite Ea; unfold imap; rewrite Q0; ring).
    assert (X2 : x == imap (n_data m) r1) by (rewrite Eb; unfold imap; rewrite Q1; ring).
    rewrite (poly_proper c _ _ X1), (poly_proper c' _ _ X2). apply (K 0%nat 1%nat); auto. rewrite <- X1, X2. reflexivity.
Qed.
Lemma continuous_value v x y y' : torn e = false -> fe_value e f sf s v V0 x y -> fe_value e f sf s v V0 x y' -> y == y'.
Proof.
  intros NT [p [Hp [c [Lc Vc]]]] [q [Hq [c' [Lc' Vc']]]]. cbn in Vc, Vc'. rewrite Vc, Vc'.
  apply (same_poly v p q c c' NT); auto.
  - destruct Hp as [n [En [Ln _]]]. exists n. auto.
  - destruct Hq as [n [En [Ln _]]]. exists n. auto.
Qed.
(** the periodic ends have the same value *)
Lemma periodic_value v y y' : periodic = true -> torn e = false -> fe_value e f sf s v V0 a y -> fe_value e f sf s v V0 b y' -> y == y'.
Proof.
  intros PT NT [p [[n [En [Ln Xn]]] [c [Lc Vc]]]] [q [[m [Em [Lm Xm]]] [c' [Lc' Vc']]]]. cbn in Vc, Vc'. rewrite Vc, Vc'.
  destruct (use_leaf_width U p n En Ln) as [W [A1 _]]. destruct (use_leaf_width U q m Em Lm) as [Wm [_ B1]].
  destruct (nodes_ends e (torn_degree e NT)) as [r0 [r1 [E0 [E1 [Q0 Q1]]]]].
  assert (L1 : (1 < n_dofs D1 e)%nat) by (rewrite <- nodes_len; apply nth_error_Some; congruence).
  destruct (use_slot p 0%nat) as [d [Hd _]]; [exists n; auto|lia|]. destruct (use_slot q 1%nat) as [d' [Hd' _]]; [exists m; auto|lia|].
  assert (P1 : position1 e f p 0 (imap (n_data n) r0)) by (exists n, r0; auto).
  assert (P2 : position1 e f q 1 (imap (n_data m) r1)) by (exists m, r1; auto).
  assert (Xa : imap (n_data n) r0 == a) by (unfold imap; rewrite Q0; lra). assert (Xb : imap (n_data m) r1 == b) by (unfold imap; rewrite Q1; lra).
  assert (d = d') by (apply (Prop_Dof1D.C34_continuous _ _ _ _ _ _ _ _ _ _ _ _ _ _ (use_dof U) NT Hd Hd' P1 P2); right; auto). subst d'.
  rewrite <- (poly_proper c _ _ Xa), <- (poly_proper c' _ _ Xb). destruct Lc as [_ Z], Lc' as [_ Z']. rewrite (Z _ _ _ Hd P1), (Z' _ _ _ Hd' P2). reflexivity.
Qed.
(** what the values in a leaf are *)
Lemma value_in_unique v der p x y y' : sub_leaf f sf p -> value_in e f s v der p x y -> value_in e f s v der p x y' -> y == y'.
Proof.
  intros [n [En Ln]] [c [Lc Vc]] [c' [Lc' Vc']]. destruct (use_leaf_width U p n En Ln) as [W _].
  destruct (use_filled U p) as [F _]; [apply leaf_sub; exists n; auto|].
  eapply poly_value_fun; [|exact Vc|exact Vc']. apply (local_unique e f s v p n c c' En W F Lc Lc').
Qed.
Lemma value_in_proper v v' der p x y y' : (forall d, In d L -> v d == v' d) -> sub_leaf f sf p -> y == y' -> value_in e f s v der p x y -> value_in e f s v' der p x y'.
Proof.
  intros Ev Hp Ey [c [[Lc Vn] Vc]]. exists c. split; [split; auto|eapply poly_value_proper; eauto].
  intros k d z Hd Pz. rewrite (Vn k d z Hd Pz). apply Ev. apply (use_L U). eauto.
Qed.

(** ** interpolation: the value at the vertex of each dof *)
(** [xv]: the vertices of the dofs of [L]; [v d == g (its vertex)] *)
Lemma vertices_spec xv : get_dof_vertices None dv (map Some L) = Ok xv ->
  Forall2 (fun d x => exists p k, dof_at s p k d /\ position1 e f p k x) L xv.
Proof. intro E. exact (Prop_DofVert.C37_positions _ _ _ _ _ _ _ _ _ _ (use_history U) E). Qed.
Lemma one_place p k q j d x z : dof_at s p k d -> position1 e f p k x -> dof_at s q j d -> position1 e f q j z ->
  x == z \/ periodic = true /\ torn e = false /\ (x == a /\ z == b \/ x == b /\ z == a).
Proof.
  intros Hd Px Hz Pz. destruct (torn e) eqn:T.
  - left. apply (Prop_Dof1D.C34_torn _ _ _ _ _ _ _ _ _ _ _ _ _ (use_dof U) T Hd Hz Px Pz).
  - destruct (proj1 (Prop_Dof1D.C34_continuous _ _ _ _ _ _ _ _ _ _ _ _ _ _ (use_dof U) T Hd Hz Px Pz) eq_refl) as [E|[E1 E2]]; auto.
Qed.
(** nodal values of the data array *)
Lemma values_exist data ns t : array_of (length L) ns data -> (t < ns)%nat -> exists v, nodal_values L data t v.
Proof.
  intros [Ld Lr] Ht. exists (value_of (mkNodal B data) t). intros i d row Ei Er.
  assert (Hd : In d L) by (eapply nth_error_In; eauto). destruct (use_d2i U d Hd) as [i' [E1 E2]].
  assert (i' = i).
  { apply (proj1 (NoDup_nth_error L) (iu_nodup _ _ _ _ _ _ _ _ _ _ U)); [apply nth_error_Some; congruence|congruence]. }
  subst i'. destruct (nth_error row t) as [y|] eqn:Ey; [|apply nth_error_None in Ey; rewrite (Lr row) in Ey; [lia|eapply nth_error_In; eauto]].
  exists y. split; auto. unfold value_of. cbn [nd_basis nd_data]. rewrite E1, (nth_error_nth data i [] Er), (nth_error_nth row t 0 Ey). reflexivity.
Qed.
Definition proper (g : Q -> Q) : Prop := forall x y, x == y -> g x == g y.
Definition ends_agree (g : Q -> Q) : Prop := periodic = true -> torn e = false -> g a == g b.
(** data[i] = the values at the vertex of the dof i *)
Lemma vertex_values xv data t v g : Forall2 (fun d x => exists p k, dof_at s p k d /\ position1 e f p k x) L xv ->
  Forall2 (fun x row => forall y, nth_error row t = Some y -> y == g x) xv data ->
  proper g -> ends_agree g -> nodal_values L data t v -> length data = length L ->
  forall p k d z, In d L -> dof_at s p k d -> position1 e f p k z -> v d == g z.
Proof.
  intros F G Pg Eg V Ld p k d z Hd Hk Pz. apply In_nth_error in Hd. destruct Hd as [i Ei].
  destruct (nth_error xv i) as [x|] eqn:Ex.
  2:{ apply nth_error_None in Ex. rewrite <- (f2_len _ _ _ F) in Ex. assert (i < length L)%nat by (apply nth_error_Some; congruence). lia. }
  destruct (nth_error data i) as [row|] eqn:Er.
  2:{ apply nth_error_None in Er. assert (i < length L)%nat by (apply nth_error_Some; congruence). lia. }
  assert (Hx : exists p k, dof_at s p k d /\ position1 e f p k x).
  { clear -F Ei Ex. revert i Ei Ex. induction F as [|d' x' l l' H F IH]; intros [|i] Ei Ex; cbn in Ei, Ex; try discriminate; [injection Ei as <-; injection Ex as <-; exact H|eauto]. }
  assert (Hy : forall y, nth_error row t = Some y -> y == g x).
  { clear -G Er Ex. revert i Er Ex. induction G as [|d' x' l l' H F IH]; intros [|i] Ei Ex; cbn in Ei, Ex; try discriminate; [injection Ei as <-; injection Ex as <-; exact H|eauto]. }
  destruct (V i d row Ei Er) as [y [Ey Evy]]. rewrite Evy, (Hy y Ey). destruct Hx as [p' [k' [Hd' Px]]].
  destruct (one_place _ _ _ _ _ _ _ Hd' Px Hk Pz) as [E|[E1 [E2 [[X1 X2]|[X1 X2]]]]].
  - auto.
  - rewrite (Pg x a X1), (Pg z b X2). auto.
  - rewrite (Pg x b X1), (Pg z a X2). symmetry. auto.
Qed.
(** a polynomial with these values in a leaf *)
Lemma reproduce v g p c : (length c <= S (degree e))%nat -> sub_leaf f sf p -> (forall x, leaf_around f sf x p -> poly c x == g x) ->
  (forall k d z, dof_at s p k d -> position1 e f p k z -> v d == g z) -> local_poly e f s v p c.
Proof.
  intros Lc [n [En Ln]] Eg Ev. split; auto. intros k d z Hd Pz. rewrite (Ev k d z Hd Pz). apply Eg. exists n. split; auto. split; auto.
  destruct (use_leaf_width U p n En Ln) as [W _].
  destruct Pz as [n' [r [En' [Er ->]]]]. rewrite En in En'. injection En' as <-. destruct (Prop_Shape.C31_lagrange_1d e) as [_ LG]. destruct (LG k r Er) as [Ur _].
  unfold imap. clear -W Ur. split; nra.
Qed.
(** the value at a node *)
Lemma node_value v p k z q y : sub_leaf f sf p -> (k < n_dofs D1 e)%nat -> position1 e f p k z -> leaf_around f sf z q ->
  value_in e f s v V0 q z y -> exists j d z', dof_at s q j d /\ In d L /\ position1 e f q j z' /\ z' == z /\ y == v d.
Proof.
  intros Hp Hk Pz Hq [c [Lc Vc]]. destruct (node_everywhere p k z q Hp Hk Pz Hq) as [j [z' [Hj [Pj Ez]]]].
  assert (Sq : sub_leaf f sf q) by (destruct Hq as [m [Em [Lm _]]]; exists m; auto).
  destruct (use_slot q j Sq Hj) as [d [Hd HL]]. exists j, d, z'. split; auto. split; auto. split; auto. split; auto.
  cbn in Vc. rewrite Vc, <- (poly_proper c _ _ Ez). apply (proj2 Lc j d z'); auto.
Qed.
End Use2.

(** * C24-C26: the doubly connected edge list *)
From Coq Require Import List Arith Bool Lia QArith Lqa.
From Verif Require Import Tree Geom Dcel SpecDcel DcelFacts.
Import ListNotations.
Open Scope nat_scope.

(** ** C24 *)
Lemma determine2_inv n faces d : determine2 n faces = Ok d ->
  d_points d = n /\ d_faces d = faces /\ d_hes d = all_hes 0 0 faces /\ d_twin d = twins (all_hes 0 0 faces) /\
  all_face_he 0 faces = Ok (d_face_he d) /\ point_loop 0 (all_hes 0 0 faces) (repeat None n) = Ok (d_point_he d).
Proof.
  unfold determine2. destruct (all_face_he 0 faces) as [l|] eqn:E1; [|discriminate]. cbn [bind].
  destruct (point_loop 0 (all_hes 0 0 faces) (repeat None n)) as [a|] eqn:E2; [|discriminate].
  intros [= <-]. simpl. auto 6.
Qed.
Lemma base_in_face faces : forall e, In e (mesh_edges faces) ->
  exists fc, In fc faces /\ In (fst e) fc.
Proof.
  intros e I. apply in_flat_map in I. destruct I as [fc [If Ie]]. exists fc; split; auto.
  apply In_nth_error in Ie. destruct Ie as [i Ei].
  assert (L : i < length fc) by (rewrite <- polygon_edges_length; apply nth_error_Some; congruence).
  rewrite (polygon_edges_nth _ _ 0) in Ei by auto. injection Ei as <-. simpl. apply nth_In; auto.
Qed.

(** The DCEL of a polygon mesh exists and its half-edges are the directed edges
    of the faces, in order. *)
Theorem C24_half_edges n faces : polygon_mesh n faces ->
  exists d, determine2 n faces = Ok d /\ d_points d = n /\ d_faces d = faces /\
            map h_conn (d_hes d) = mesh_edges faces /\ length (d_twin d) = length (mesh_edges faces) /\
            length (d_face_he d) = length faces /\ length (d_point_he d) = n.
Proof.
  intros [NE [B _]]. destruct (all_face_he_total faces 0 NE) as [l El].
  destruct (point_loop_total (all_hes 0 0 faces) 0 (repeat None n)) as [a Ea].
  { intros h I. rewrite repeat_length.
    assert (Ic : In (h_conn h) (mesh_edges faces)) by (rewrite <- (all_hes_conn faces 0 0); apply in_map; auto).
    destruct (base_in_face _ _ Ic) as [fc [If Iv]]. rewrite Forall_forall in B. specialize (B fc If).
    rewrite Forall_forall in B. auto. }
  exists (mkDcel n faces l a (all_hes 0 0 faces) (twins (all_hes 0 0 faces))).
  split; [unfold determine2; rewrite El; cbn [bind]; rewrite Ea; reflexivity|]. simpl.
  repeat split; auto using all_hes_conn.
  - unfold twins. rewrite map_length. apply all_hes_length.
  - apply (all_face_he_ok _ _ _ El).
  - destruct (point_loop_ok _ _ _ _ Ea) as [L _]. rewrite L. apply repeat_length.
Qed.
Print Assumptions C24_half_edges.

Lemma mod_next_prev n i : i < n -> ((i + 1) mod n + n - 1) mod n = i.
Proof.
  intros L. destruct (Nat.eq_dec (i + 1) n) as [E|N].
  - rewrite E, Nat.mod_same by lia. replace (0 + n - 1) with i by lia. apply Nat.mod_small; auto.
  - rewrite (Nat.mod_small (i + 1)) by lia. replace (i + 1 + n - 1) with (i + 1 * n) by lia.
    rewrite Nat.mod_add by lia. apply Nat.mod_small; auto.
Qed.
Lemma mod_prev_next n i : i < n -> ((i + n - 1) mod n + 1) mod n = i.
Proof.
  intros L. destruct i as [|i].
  - replace (0 + n - 1) with (n - 1) by (clear - L; lia). rewrite (Nat.mod_small (n - 1)) by lia. replace (n - 1 + 1) with n by lia.
    apply Nat.mod_same; lia.
  - replace (S i + n - 1) with (i + 1 * n) by lia. rewrite Nat.mod_add by lia.
    rewrite (Nat.mod_small i) by lia. rewrite Nat.mod_small; lia.
Qed.

(** next and prev are mutually inverse, stay in the face and join head to base. *)
Theorem C24_next_prev n faces d h x :
  determine2 n faces = Ok d -> nth_error (d_hes d) h = Some x ->
  exists f fc p xp s xs,
    h_face x = Some f /\ nth_error faces f = Some fc /\ In (h_conn x) (polygon_edges fc) /\
    h_prev x = Some p /\ nth_error (d_hes d) p = Some xp /\ h_next xp = Some h /\
    h_face xp = Some f /\ snd (h_conn xp) = fst (h_conn x) /\
    h_next x = Some s /\ nth_error (d_hes d) s = Some xs /\ h_prev xs = Some h /\
    h_face xs = Some f /\ fst (h_conn xs) = snd (h_conn x).
Proof.
  intros E Ex. destruct (determine2_inv _ _ _ E) as [_ [_ [Eh _]]]. rewrite Eh in *. clear Eh E.
  assert (L : h < length (mesh_edges faces)) by (rewrite <- (all_hes_length faces 0 0); apply nth_error_Some; congruence).
  destruct (he_side faces h L) as [f [fc [i [Ef [Li ->]]]]]. unfold side_he in *.
  set (m := length fc) in *.
  assert (Lp : (i + m - 1) mod m < m) by (apply Nat.mod_upper_bound; lia).
  assert (Ls : (i + 1) mod m < m) by (apply Nat.mod_upper_bound; lia).
  rewrite (all_hes_nth faces 0 0 f fc i Ef Li) in Ex. injection Ex as <-. fold m.
  exists f, fc, (offset faces f + (i + m - 1) mod m). eexists.
  exists (offset faces f + (i + 1) mod m). eexists. cbn [h_face h_conn h_prev h_next fst snd].
  rewrite (all_hes_nth faces 0 0 f fc _ Ef Lp), (all_hes_nth faces 0 0 f fc _ Ef Ls).
  fold m. cbn [h_face h_conn h_prev h_next fst snd plus].
  split; [reflexivity|]. split; [auto|]. split.
  { apply (nth_error_In _ i). rewrite (polygon_edges_nth _ _ 0) by auto. reflexivity. }
  split; [reflexivity|]. split; [reflexivity|]. cbn [h_face h_conn h_prev h_next fst snd].
  rewrite mod_prev_next, mod_next_prev by auto. repeat split; auto.
Qed.
Print Assumptions C24_next_prev.

(** Following next from the face's half-edge visits the sides of the face in
    order and then returns. *)
Definition next_of (d : dcel) (h : nat) : option nat :=
  match nth_error (d_hes d) h with Some x => h_next x | None => None end.
Fixpoint walk (d : dcel) (k : nat) (h : nat) : option nat :=
  match k with O => Some h | S k' => match walk d k' h with Some g => next_of d g | None => None end end.
Theorem C24_face_loop n faces d f fc :
  determine2 n faces = Ok d -> nth_error faces f = Some fc ->
  exists h0, nth_error (d_face_he d) f = Some h0 /\ walk d (length fc) h0 = Some h0 /\
  (forall i, i < length fc -> exists h x, walk d i h0 = Some h /\ nth_error (d_hes d) h = Some x /\
     nth_error (polygon_edges fc) i = Some (h_conn x) /\ h_face x = Some f /\ (h = h0 -> i = 0)).
Proof.
  intros E Ef. destruct (determine2_inv _ _ _ E) as [_ [_ [Eh [_ [El _]]]]].
  destruct (all_face_he_ok _ _ _ El) as [_ B]. exists (offset faces f).
  assert (Lf : f < length faces) by (apply nth_error_Some; congruence).
  split; [apply (B f Lf)|].
  assert (Ne : fc <> []).
  { intros ->. clear - El Ef. assert (G : forall faces c l, all_face_he c faces = Ok l -> forall f, nth_error faces f <> Some []).
    { induction faces0 as [|x r IH]; intros c l E [|g] H; simpl in H; try discriminate.
      - injection H as ->. discriminate.
      - destruct x as [|v x]; [discriminate|]. 
        change (bind (all_face_he (c + length (v :: x)) r) (fun l0 => Ok (c :: l0)) = Ok l) in E.
        destruct (all_face_he (c + length (v :: x)) r) eqn:E0; [|discriminate]. eapply IH; eauto. }
    eapply G; eauto. }
  assert (Lm : 0 < length fc) by (destruct fc; simpl; [congruence|lia]).
  set (m := length fc) in *.
  assert (W : forall i, walk d i (offset faces f) = Some (offset faces f + i mod m)).
  { induction i as [|i IH]; simpl.
    - rewrite Nat.mod_small by lia. f_equal; lia.
    - rewrite IH. unfold next_of. rewrite Eh.
      assert (Lr : i mod m < m) by (apply Nat.mod_upper_bound; lia).
      rewrite (all_hes_nth faces 0 0 f fc _ Ef Lr). cbn [h_next]. fold m. do 2 f_equal. 
      rewrite Nat.add_mod_idemp_l by lia. f_equal; lia. }
  split; [rewrite W, Nat.mod_same by lia; f_equal; lia|].
  intros i Li. rewrite W, Nat.mod_small by auto. eexists; eexists. split; [reflexivity|].
  rewrite Eh, (all_hes_nth faces 0 0 f fc i Ef Li). split; [reflexivity|]. cbn [h_conn h_face].
  rewrite (polygon_edges_nth _ _ 0) by auto. repeat split; auto. lia.
Qed.
Print Assumptions C24_face_loop.

(** Twins: the twin of a half-edge is the half-edge in the opposite direction;
    twin is an involution; there is no twin exactly if no face traverses the
    edge in the opposite direction; in a mesh of proper polygons the twin
    belongs to another face. *)
Theorem C24_twin n faces d h x :
  polygon_mesh n faces -> determine2 n faces = Ok d -> nth_error (d_hes d) h = Some x ->
  exists o, nth_error (d_twin d) h = Some o /\
    (forall t, o = Some t <-> exists y, nth_error (d_hes d) t = Some y /\ h_conn y = opposite (h_conn x)) /\
    (forall t, o = Some t -> nth_error (d_twin d) t = Some (Some h)) /\
    (o = None <-> ~ In (opposite (h_conn x)) (mesh_edges faces)) /\
    (Forall simple_face faces -> forall t y, o = Some t -> nth_error (d_hes d) t = Some y -> h_face y <> h_face x).
Proof.
  intros [_ [_ ND]] E Ex. destruct (determine2_inv _ _ _ E) as [_ [_ [Eh [Et _]]]].
  rewrite Eh, Et in *. rewrite <- (all_hes_conn faces 0 0) in ND.
  destruct (twins_spec _ _ _ ND Ex) as [o [Eo So]]. exists o. split; auto. split; auto. split; [|split].
  - intros t Ht. destruct (proj1 (So t) Ht) as [y [Ey Cy]].
    destruct (twins_spec _ _ _ ND Ey) as [o' [Eo' So']]. rewrite Eo'. f_equal. apply So'. exists x. split; auto.
    rewrite Cy, opposite_invol. reflexivity.
  - rewrite <- (all_hes_conn faces 0 0). split.
    + intros -> I. apply in_map_iff in I. destruct I as [y [Cy Iy]]. apply In_nth_error in Iy. destruct Iy as [t Ey].
      assert (None = Some t) by (apply So; eauto). discriminate.
    + intros NI. destruct o as [t|]; auto. exfalso. destruct (proj1 (So t) eq_refl) as [y [Ey Cy]].
      apply NI. rewrite <- Cy. apply in_map. eapply nth_error_In; eauto.
  - intros SF t y Ht Ey. destruct (proj1 (So t) Ht) as [y' [Ey' Cy]]. assert (y' = y) by congruence. subst y'. clear Ey'.
    assert (Lh : h < length (mesh_edges faces)) by (rewrite <- (all_hes_length faces 0 0); apply nth_error_Some; congruence).
    assert (Lt : t < length (mesh_edges faces)) by (rewrite <- (all_hes_length faces 0 0); apply nth_error_Some; congruence).
    destruct (he_side faces h Lh) as [f [fc [i [Ef [Li ->]]]]].
    destruct (he_side faces t Lt) as [g [gc [j [Eg [Lj ->]]]]]. unfold side_he in *.
    rewrite (all_hes_nth faces 0 0 f fc i Ef Li) in Ex. injection Ex as <-.
    rewrite (all_hes_nth faces 0 0 g gc j Eg Lj) in Ey. injection Ey as <-.
    cbn [h_face h_conn plus] in *. intros [= F]. subst g. assert (gc = fc) by congruence. subst gc.
    rewrite Forall_forall in SF. destruct (SF fc (nth_error_In _ _ Ef)) as [Nd L3].
    unfold opposite in Cy; cbn [fst snd] in Cy. injection Cy as C1 C2.
    rewrite (NoDup_nth fc 0) in Nd.
    assert (B : forall a, a mod length fc < length fc) by (intros; apply Nat.mod_upper_bound; lia).
    apply Nd in C1; auto. apply Nd in C2; auto.
    assert (Hcase : forall a, a < length fc -> (a + 1) mod length fc = if Nat.eq_dec (a + 1) (length fc) then 0 else a + 1).
    { intros a La. destruct (Nat.eq_dec (a + 1) (length fc)) as [->|]; [apply Nat.mod_same; lia|apply Nat.mod_small; lia]. }
    rewrite Hcase in C1, C2 by auto.
    destruct (Nat.eq_dec (i + 1) (length fc)), (Nat.eq_dec (j + 1) (length fc)); lia.
Qed.
Print Assumptions C24_twin.

(** Every point refers to a half-edge that starts at it, if there is one. *)
Theorem C24_point n faces d v o :
  determine2 n faces = Ok d -> nth_error (d_point_he d) v = Some o ->
  match o with
  | Some h => exists x, nth_error (d_hes d) h = Some x /\ fst (h_conn x) = v
  | None => forall e, In e (mesh_edges faces) -> fst e <> v
  end.
Proof.
  intros E Ev. destruct (determine2_inv _ _ _ E) as [_ [_ [Eh [_ [_ Ep]]]]]. rewrite Eh.
  destruct (point_loop_ok _ _ _ _ Ep) as [_ B]. destruct (B v o Ev) as [[j [x [-> [Ex Cx]]]]|[Ea N]].
  - exists x; auto.
  - assert (o = None). { apply nth_error_In in Ea. apply repeat_spec in Ea. auto. } subst o.
    intros e I. rewrite <- (all_hes_conn faces 0 0) in I. apply in_map_iff in I. destruct I as [x [<- Ix]]. apply N; auto.
Qed.
Print Assumptions C24_point.

(** an L-shaped mesh of three squares, one of them split into two triangles *)
Definition ex_faces : list (list nat) := [[0; 1; 4; 3]; [1; 2; 5; 4]; [3; 4; 7]; [3; 7; 6]].
Example C24_case : polygon_mesh 8 ex_faces /\ Forall simple_face ex_faces /\
  exists d, determine2 8 ex_faces = Ok d /\
    d_twin d = [None; Some 7; Some 8; None; None; None; None; Some 1; Some 2; None; Some 11; Some 10; None; None].
Proof.
  split; [|split].
  - split; [repeat constructor; discriminate|]. split; [repeat constructor|].
    vm_compute. repeat constructor; simpl; intuition discriminate.
  - repeat constructor; simpl; try lia; intuition discriminate.
  - vm_compute. eexists; split; reflexivity.
Qed.

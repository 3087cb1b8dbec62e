(** * C25, C26: rectangular grids and neighbours in a DCEL *)
From Coq Require Import List Arith Bool Lia QArith Lqa.
From Verif Require Import Tree Geom Dcel SpecDcel DcelFacts Prop_Dcel GridFacts.
Import ListNotations.
Open Scope nat_scope.

(** ** C25 *)
(** Sizes; the grid is a proper polygon mesh (so C24 applies to it). *)
Theorem C25_grid_size nx ny :
  exists d, rectangular2 nx ny = Ok d /\
    d_points d = (nx + 1) * (ny + 1) /\ length (d_faces d) = nx * ny /\
    length (d_hes d) = 4 * (nx * ny) /\
    polygon_mesh ((nx + 1) * (ny + 1)) (d_faces d) /\ Forall simple_face (d_faces d) /\
    forall xa xb ya yb, length (grid_points xa xb ya yb nx ny) = d_points d.
Proof.
  destruct (C24_half_edges _ _ (grid_polygon_mesh nx ny)) as [d [E [Ep [Ef [Eh _]]]]].
  exists d. split; auto. split; auto. rewrite Ef. split; [apply grid_faces_length|]. split; [|split; [|split]].
  - rewrite <- (map_length h_conn), Eh, mesh_edges_length. 
    assert (G : forall l, (forall fc, In fc l -> length fc = 4) -> list_sum (map (@length nat) l) = 4 * length l).
    { induction l as [|a l IH]; intros H; simpl; auto. rewrite (H a) by (left; auto). rewrite IH by (intros; apply H; right; auto). lia. }
    rewrite G, grid_faces_length; auto. intros fc I. destruct (in_grid_faces _ _ _ I) as [ix [iy [_ [_ ->]]]]. reflexivity.
  - apply grid_polygon_mesh.
  - apply grid_simple.
  - intros. unfold grid_points. rewrite (flat_rows_length _ (nx + 1)); [lia|]. intros y. rewrite map_length, seq_length. reflexivity.
Qed.
Print Assumptions C25_grid_size.

(** the i-th coordinate of n equal parts of [a, b] *)
Definition part (a b : Q) (n i : nat) : Q := (a + (b - a) * (Qn i / Qn n))%Q.
Lemma Qn_S n : (Qn (S n) == Qn n + 1)%Q.
Proof. unfold Qn. rewrite Nat2Z.inj_succ, <- Z.add_1_r, inject_Z_plus. reflexivity. Qed.
Lemma Qn_pos n : (0 < n)%nat -> (0 < Qn n)%Q.
Proof. intros L. unfold Qn. replace 0%Q with (inject_Z 0) by reflexivity. rewrite <- Zlt_Qlt. lia. Qed.
Lemma linspace_part a b n i : (linspace a b n i == part a b n i)%Q.
Proof. unfold linspace, part, Qdiv. ring. Qed.
Lemma grid_points_nth xa xb ya yb nx ny x y : x <= nx -> y <= ny ->
  nth_error (grid_points xa xb ya yb nx ny) (grid_idx nx x y) = Some (linspace xa xb nx x, linspace ya yb ny y).
Proof.
  intros Lx Ly. unfold grid_points, grid_idx. rewrite (nth_error_flat_rows _ (nx + 1)); try lia.
  - rewrite nth_error_map, nth_error_seq by lia. reflexivity.
  - intros z. rewrite map_length, seq_length. reflexivity.
Qed.
Lemma part_step a b n i : (0 < n)%nat -> (a < b)%Q -> (part a b n i < part a b n (S i))%Q.
Proof.
  intros L H. unfold part. rewrite Qn_S. pose proof (Qn_pos n L) as P.
  assert (E : ((Qn i + 1) / Qn n == Qn i / Qn n + / Qn n)%Q) by (field; lra). rewrite E.
  assert (0 < / Qn n)%Q by (apply Qinv_lt_0_compat; auto).
  assert (0 < (b - a) * / Qn n)%Q by (apply Qmult_lt_0_compat; lra). lra.
Qed.

Definition pt_eq (p q : pt) : Prop := (fst p == fst q)%Q /\ (snd p == snd q)%Q.

(** Face number iy*nx + ix is the cell in column ix and row iy of the equal
    subdivision of the box, its vertices being listed counter-clockwise from the
    south-west corner. *)
Theorem C25_faces nx ny ix iy (xa xb ya yb : Q) :
  ix < nx -> iy < ny ->
  exists a b c e pa pb pc pe,
    nth_error (grid_faces nx ny) (iy * nx + ix) = Some [a; b; c; e] /\
    nth_error (grid_points xa xb ya yb nx ny) a = Some pa /\
    nth_error (grid_points xa xb ya yb nx ny) b = Some pb /\
    nth_error (grid_points xa xb ya yb nx ny) c = Some pc /\
    nth_error (grid_points xa xb ya yb nx ny) e = Some pe /\
    pt_eq pa (part xa xb nx ix, part ya yb ny iy) /\
    pt_eq pb (part xa xb nx (S ix), part ya yb ny iy) /\
    pt_eq pc (part xa xb nx (S ix), part ya yb ny (S iy)) /\
    pt_eq pe (part xa xb nx ix, part ya yb ny (S iy)) /\
    ((xa < xb)%Q -> (ya < yb)%Q ->
       (part xa xb nx ix < part xa xb nx (S ix))%Q /\ (part ya yb ny iy < part ya yb ny (S iy))%Q /\
       (0 < area (pa, pb, pc, pe))%Q).
Proof.
  intros Lx Ly. rewrite grid_faces_nth by auto. unfold grid_face. rewrite !Nat.add_1_r.
  do 8 eexists. split; [reflexivity|].
  split; [apply grid_points_nth; lia|]. split; [apply grid_points_nth; lia|].
  split; [apply grid_points_nth; lia|]. split; [apply grid_points_nth; lia|].
  unfold pt_eq; simpl fst; simpl snd. rewrite <- !linspace_part. repeat (split; [split; apply linspace_part || reflexivity|]).
  intros Hx Hy. pose proof (part_step xa xb nx ix ltac:(lia) Hx) as P1. pose proof (part_step ya yb ny iy ltac:(lia) Hy) as P2.
  rewrite <- !linspace_part in P1. rewrite <- !linspace_part in P2.
  split; auto. split; auto. unfold area, area_of, edges. simpl.
  set (x0 := linspace xa xb nx ix) in *. set (x1 := linspace xa xb nx (S ix)) in *.
  set (y0 := linspace ya yb ny iy) in *. set (y1 := linspace ya yb ny (S iy)) in *.
  assert (0 < (x1 - x0) * (y1 - y0))%Q by (apply Qmult_lt_0_compat; lra). lra.
Qed.
Print Assumptions C25_faces.

(** Half-edge number 4*(iy*nx+ix)+k is side k (south, east, north, west) of the
    cell in column ix and row iy, and its twin is the facing side of the adjacent
    cell, which is missing exactly at the border of the grid. *)
Theorem C25_adjacency nx ny d ix iy :
  rectangular2 nx ny = Ok d -> ix < nx -> iy < ny ->
  let cell x y := y * nx + x in
  let he x y k := 4 * cell x y + k in
  (forall k, k < 4 -> exists x, nth_error (d_hes d) (he ix iy k) = Some x /\ h_face x = Some (cell ix iy) /\
     nth_error (polygon_edges (nth (cell ix iy) (d_faces d) [])) k = Some (h_conn x)) /\
  nth_error (d_twin d) (he ix iy 0) = Some (match iy with O => None | S j => Some (he ix j 2) end) /\
  nth_error (d_twin d) (he ix iy 1) = Some (if S ix =? nx then None else Some (he (S ix) iy 3)) /\
  nth_error (d_twin d) (he ix iy 2) = Some (if S iy =? ny then None else Some (he ix (S iy) 0)) /\
  nth_error (d_twin d) (he ix iy 3) = Some (match ix with O => None | S j => Some (he j iy 1) end) /\
  (forall h x, nth_error (d_hes d) h = Some x -> exists jx jy k, jx < nx /\ jy < ny /\ k < 4 /\ h = he jx jy k).
Proof.
  intros E Lx Ly cell he. destruct (determine2_inv _ _ _ E) as [_ [Ef [Eh [Et _]]]]. rewrite Ef, Eh, Et.
  split; [|split; [|split; [|split; [|split]]]].
  - intros k Lk. eexists. split; [apply (grid_he nx ny ix iy k Lx Ly Lk)|]. split; [reflexivity|].
    rewrite (nth_error_nth _ _ _ (grid_faces_nth nx ny ix iy Lx Ly)).
    rewrite (polygon_edges_nth _ _ 0) by exact Lk. cbn [h_conn]. f_equal.
    apply mod4 in Lk. destruct Lk as [->|[->|[->| ->]]]; unfold pidx, grid_face; simpl; rewrite ?Nat.add_1_r; reflexivity.
  - exact (grid_twin nx ny ix iy 0 Lx Ly ltac:(lia)).
  - eapply eq_trans; [exact (grid_twin nx ny ix iy 1 Lx Ly ltac:(lia))|]. simpl across. f_equal.
    destruct (Nat.ltb_spec (S ix) nx), (Nat.eqb_spec (S ix) nx); try lia; reflexivity.
  - eapply eq_trans; [exact (grid_twin nx ny ix iy 2 Lx Ly ltac:(lia))|]. simpl across. f_equal.
    destruct (Nat.ltb_spec (S iy) ny), (Nat.eqb_spec (S iy) ny); try lia; reflexivity.
  - exact (grid_twin nx ny ix iy 3 Lx Ly ltac:(lia)).
  - intros h x Ex. apply (grid_he_all nx ny h x Ex).
Qed.
Print Assumptions C25_adjacency.

(** The half-edges without a twin are exactly those on the boundary of the box. *)
Theorem C25_boundary nx ny d h x (xa xb ya yb : Q) p q :
  rectangular2 nx ny = Ok d -> (xa < xb)%Q -> (ya < yb)%Q ->
  nth_error (d_hes d) h = Some x ->
  nth_error (grid_points xa xb ya yb nx ny) (fst (h_conn x)) = Some p ->
  nth_error (grid_points xa xb ya yb nx ny) (snd (h_conn x)) = Some q ->
  (nth_error (d_twin d) h = Some None <->
   ((fst p == xa /\ fst q == xa) \/ (fst p == xb /\ fst q == xb) \/
    (snd p == ya /\ snd q == ya) \/ (snd p == yb /\ snd q == yb))%Q).
Proof.
  intros E Hx Hy Ex Ep Eq. destruct (determine2_inv _ _ _ E) as [_ [Ef [Eh [Et _]]]]. rewrite Eh in Ex. rewrite Et.
  destruct (grid_he_all nx ny h x Ex) as [ix [iy [k [Lx [Ly [Lk ->]]]]]].
  rewrite grid_he in Ex by auto. injection Ex as <-. cbn [h_conn fst snd] in *. unfold pidx in *.
  rewrite grid_points_nth in Ep; [|apply base_bound; auto|destruct k as [|[|[|k]]]; simpl; lia].
  rewrite grid_points_nth in Eq; [|apply head_bound; auto|destruct k as [|[|[|k]]]; simpl; lia].
  injection Ep as <-. injection Eq as <-. cbn [fst snd]. rewrite grid_twin by auto. rewrite !linspace_part.
  assert (Inj : forall a b n i j, (0 < n)%nat -> (a < b)%Q -> (part a b n i == part a b n j)%Q -> i = j).
  { intros a b n i j Ln Hab He. unfold part in He. pose proof (Qn_pos n Ln) as P.
    assert (P' : (0 < / Qn n)%Q) by (apply Qinv_lt_0_compat; auto).
    assert (P2 : ((b - a) * / Qn n > 0)%Q) by (apply Qmult_lt_0_compat; lra).
    assert (Z0 : ((b - a) * / Qn n * (Qn i - Qn j) == 0)%Q) by (unfold Qdiv in He; revert He; generalize (/ Qn n)%Q, (Qn i), (Qn j); intros; lra).
    apply Qmult_integral in Z0. destruct Z0 as [Z0|Z0]; [rewrite Z0 in P2; discriminate P2|]. assert (Z1 : (Qn i == Qn j)%Q) by lra.
    unfold Qn in Z1. apply (proj1 (inject_Z_injective _ _)) in Z1. apply Nat2Z.inj; exact Z1. }
  assert (I0 : forall a b n, (part a b n 0 == a)%Q). { intros. unfold part. unfold Qn, Qdiv. simpl inject_Z. ring. }
  assert (I1 : forall a b n, (0 < n)%nat -> (part a b n n == b)%Q).
  { intros a b n Ln. unfold part. pose proof (Qn_pos n Ln). setoid_replace (Qn n / Qn n)%Q with 1%Q; [ring|]. field; lra. }
  assert (X0 : forall j, (part xa xb nx j == xa)%Q <-> j = 0).
  { intros j; split; [|intros ->; apply I0]. intros H. apply (Inj xa xb nx); auto; try lia. rewrite I0. auto. }
  assert (X1 : forall j, (part xa xb nx j == xb)%Q <-> j = nx).
  { intros j; split; [|intros ->; apply I1; lia]. intros H. apply (Inj xa xb nx); auto; try lia. rewrite I1 by lia. auto. }
  assert (Y0 : forall j, (part ya yb ny j == ya)%Q <-> j = 0).
  { intros j; split; [|intros ->; apply I0]. intros H. apply (Inj ya yb ny); auto; try lia. rewrite I0. auto. }
  assert (Y1 : forall j, (part ya yb ny j == yb)%Q <-> j = ny).
  { intros j; split; [|intros ->; apply I1; lia]. intros H. apply (Inj ya yb ny); auto; try lia. rewrite I1 by lia. auto. }
  rewrite !X0, !X1, !Y0, !Y1. clear X0 X1 Y0 Y1 I0 I1 Inj.
  destruct k as [|[|[|[|k]]]]; try lia; simpl.
  - destruct iy; split; try (intros [=]); try lia; auto.
  - destruct (Nat.ltb_spec (S ix) nx); split; try (intros [=]); try lia; auto; intros; try (exfalso; lia).
  - destruct (Nat.ltb_spec (S iy) ny); split; try (intros [=]); try lia; auto; intros; try (exfalso; lia).
  - destruct ix; split; try (intros [=]); try lia; auto.
Qed.
Print Assumptions C25_boundary.
Example C25_case : exists d, rectangular2 3 2 = Ok d /\
  nth_error (d_twin d) (4 * (0 * 3 + 1) + 2) = Some (Some (4 * (1 * 3 + 1) + 0)) /\
  nth_error (d_twin d) (4 * (0 * 3 + 2) + 1) = Some None.
Proof. vm_compute. eexists. repeat split. Qed.

(** ** C26 *)
(** Across a half-edge with a twin, get_neighbor returns the face of the twin. *)
Theorem C26_interior_neighbor_partial n faces d f h x t :
  polygon_mesh n faces -> determine2 n faces = Ok d ->
  nth_error (d_hes d) h = Some x -> h_face x = Some f -> nth_error (d_twin d) h = Some (Some t) ->
  exists g fc, get_neighbor2 d f h = Ok (Some g) /\ nth_error faces g = Some fc /\
               In (opposite (h_conn x)) (polygon_edges fc) /\
               (forall f', f' <> f -> get_neighbor2 d f' h = Err AssertionError).
Proof.
  intros PM E Ex Ef Et. destruct (C24_twin _ _ _ _ _ PM E Ex) as [o [Eo [So [_ _]]]].
  assert (o = Some t) by congruence. subst o. destruct (proj1 (So t) eq_refl) as [y [Ey Cy]].
  destruct (C24_next_prev _ _ _ _ _ E Ey) as [g [fc [_ [_ [_ [_ [Eg [Efc [I _]]]]]]]]].
  exists g, fc. unfold get_neighbor2. rewrite Ex, Et, Ef, Nat.eqb_refl. cbn [pyget].
  rewrite nth_error_map, Ey. cbn. rewrite Eg. rewrite <- Cy. repeat split; auto.
  intros f' N. destruct (Nat.eqb_spec f f'); [congruence|reflexivity].
Qed.
Print Assumptions C26_interior_neighbor_partial.
(** The claim fails at every boundary half-edge of every mesh: instead of None
    the answer is the last face of the mesh (array index -1). *)
Theorem C26_boundary_refuted n faces d f h x :
  determine2 n faces = Ok d -> nth_error (d_hes d) h = Some x -> h_face x = Some f ->
  nth_error (d_twin d) h = Some None ->
  get_neighbor2 d f h = Ok (Some (length faces - 1)).
Proof.
  intros E Ex Ef Et. unfold get_neighbor2. rewrite Ex, Et, Ef, Nat.eqb_refl.
  destruct (determine2_inv _ _ _ E) as [_ [_ [Eh [_ [El _]]]]]. rewrite Eh in *. clear - El Ex.
  assert (NE : Forall (fun fc => fc <> []) faces).
  { clear Ex. revert El. generalize 0 (d_face_he d). induction faces as [|fc r IH]; intros c l El; constructor.
    - destruct fc; [discriminate El|discriminate].
    - destruct fc as [|v fc]; [discriminate|].
      change (bind (all_face_he (c + length (v :: fc)) r) (fun l0 => Ok (c :: l0)) = Ok l) in El.
      destruct (all_face_he (c + length (v :: fc)) r) eqn:E0; [|discriminate]. eapply IH; eauto. }
  assert (NF : faces <> []) by (intros ->; destruct h; discriminate).
  assert (G : forall l c g, Forall (fun fc : list nat => fc <> []) l -> l <> [] ->
     exists r, rev (map h_face (all_hes c g l)) = Some (g + length l - 1) :: r).
  { induction l as [|fc r IH]; intros c g F N; [congruence|]. inversion F; subst.
    change (all_hes c g (fc :: r)) with (face_hes c g fc ++ all_hes (c + length fc) (S g) r).
    rewrite map_app, rev_app_distr. destruct r as [|fc' r].
    - simpl. replace (g + 1 - 1) with g by lia.
      assert (M : map h_face (face_hes c g fc) = repeat (Some g) (length fc)).
      { unfold face_hes. rewrite map_map. cbn [h_face]. 
        assert (Q : forall n s, map (fun _ : nat => Some g) (seq s n) = repeat (Some g) n) by (induction n; intros; simpl; f_equal; auto).
        apply Q. }
      rewrite M. destruct fc as [|v fc]; [congruence|]. simpl length.
      assert (R : forall n (a : option nat), rev (repeat a n) = repeat a n).
      { induction n; intros a; simpl; auto. rewrite IHn. clear. induction n; simpl; auto. f_equal. auto. }
      rewrite R. simpl. eexists; reflexivity.
    - destruct (IH (c + length fc) (S g) H2 ltac:(discriminate)) as [r0 Er]. rewrite Er.
      eexists. simpl app. f_equal. f_equal. simpl; lia. }
  destruct (G faces 0 0 NE NF) as [r Er]. cbn [pyget]. rewrite Er. reflexivity.
Qed.
Print Assumptions C26_boundary_refuted.
Example C26_case : exists d, determine2 8 ex_faces = Ok d /\
  get_neighbor2 d 0 1 = Ok (Some 1) /\ nth_error (d_twin d) 1 = Some (Some 7) /\
  nth_error (d_twin d) 0 = Some None /\ get_neighbor2 d 0 0 = Ok (Some 3).
Proof. vm_compute. eexists. repeat split. Qed.

(** One dimension: the neighbour across the left (right) endpoint of interval
    [i] is the interval before (after) it, None at the ends. *)
Theorem C26_neighbor_1d_partial n i : i < n ->
  get_neighbor1 (determine1 n) i i = Ok (if i =? 0 then None else Some (i - 1)) /\
  get_neighbor1 (determine1 n) i (S i) = Ok (if S i =? n then None else Some (S i)) /\
  (forall p, p <> i -> p <> S i -> get_neighbor1 (determine1 n) i p = Err AssertionError).
Proof.
  intros L. unfold get_neighbor1, determine1. cbn [d_hes]. unfold hes1. rewrite nth_error_map, nth_error_seq by auto.
  cbn [option_map h_conn fst snd h_prev h_next plus]. rewrite !Nat.eqb_refl.
  split; [|split].
  - f_equal. destruct i; auto. simpl. rewrite Nat.sub_0_r. reflexivity.
  - destruct (Nat.eqb_spec (S i) i); [lia|]. f_equal.
    destruct (Nat.ltb_spec (S i) n), (Nat.eqb_spec (S i) n); auto; lia.
  - intros p N1 N2. destruct (Nat.eqb_spec p i); [lia|]. destruct (Nat.eqb_spec p (S i)); [lia|]. reflexivity.
Qed.
Print Assumptions C26_neighbor_1d_partial.
(** On a periodic grid the ends are neighbours of each other. *)
Theorem C26_neighbor_1d_periodic_partial n i : i < n ->
  exists d, make_periodic1 (determine1 n) = Ok d /\
  get_neighbor1 d i i = Ok (Some (if i =? 0 then n - 1 else i - 1)) /\
  get_neighbor1 d i (S i) = Ok (Some (if S i =? n then 0 else S i)).
Proof.
  intros L. unfold make_periodic1. cbn [d_hes determine1].
  assert (Ln : length (hes1 n) = n) by (unfold hes1; rewrite map_length, seq_length; auto).
  rewrite Ln. destruct (Nat.eqb_spec n 0); [lia|]. eexists; split; [reflexivity|]. unfold get_neighbor1. cbn [d_hes].
  assert (H : forall j, j < n -> nth_error (hes1 n) j = Some (mkH (j, S j) (match j with O => None | S j => Some j end)
                    (if S j <? n then Some (S j) else None) None)).
  { intros j Lj. unfold hes1. rewrite nth_error_map, nth_error_seq by auto. reflexivity. }
  unfold upd_nth at 2 4. rewrite (H (n - 1)) by lia.
  set (l := set_nth (n - 1) _ (hes1 n)).
  assert (Ll : length l = n) by (unfold l; rewrite set_nth_length; auto).
  assert (Hl : forall j, j < n -> nth_error l j = Some (mkH (j, S j) (match j with O => None | S j => Some j end)
                    (if S j =? n then Some 0 else Some (S j)) None)).
  { intros j Lj. unfold l. destruct (Nat.eq_dec j (n - 1)) as [->|N].
    - rewrite set_nth_same by lia. unfold set_next. cbn [h_conn h_prev h_face].
      destruct (Nat.eqb_spec (S (n - 1)) n); [reflexivity|lia].
    - rewrite set_nth_other by lia. rewrite H by auto. destruct (Nat.ltb_spec (S j) n); [|lia].
      destruct (Nat.eqb_spec (S j) n); [lia|reflexivity]. }
  unfold upd_nth. rewrite (Hl 0) by lia.
  set (m := set_nth 0 _ l).
  assert (Hm : nth_error m i = Some (mkH (i, S i) (match i with O => Some (n - 1) | S j => Some j end)
                    (if S i =? n then Some 0 else Some (S i)) None)).
  { unfold m. destruct i as [|i].
    - rewrite set_nth_same by lia. reflexivity.
    - rewrite set_nth_other by lia. rewrite Hl by auto. reflexivity. }
  rewrite Hm. cbn [h_conn fst snd h_prev h_next]. rewrite !Nat.eqb_refl. split.
  - destruct i; simpl; rewrite ?Nat.sub_0_r; reflexivity.
  - destruct (Nat.eqb_spec (S i) i); [lia|]. destruct (S i =? n); reflexivity.
Qed.
Print Assumptions C26_neighbor_1d_periodic_partial.

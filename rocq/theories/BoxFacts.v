(** * The boundary of a rectangular grid in coordinates (for C67, C70) *)
From Coq Require Import List Arith Bool Lia QArith Lqa.
From Verif Require Import Tree Forest Geom SpecGeom Dcel SpecDcel Quad SpecForest TreeFacts ForestFacts QuadFacts QuadSplit QuadInv SpecQuad QuadNb
  DcelFacts GridFacts QuadInit QuadUniq QuadStart QuadCoords QuadHist Prop_Grid Prop_QuadMesh Prop_Balance Fem SpecFem Dof SpecDof DofFacts
  Dof2 SpecDof2 SurfFacts Node2Facts Surf2 Dof2Facts Dof2Hist Grid2 Segments Solver Region SpecRegion RegionFacts RegionMain Prop_Region.
Import ListNotations.
Open Scope nat_scope.

(** a point of the unit square on its side [k] *)
Definition uside (k : nat) (x : pt) : Prop := on_line 0 1 0 1 k x.
Lemma uside_peq k x y : peq x y -> uside k x -> uside k y.
Proof. intros [E1 E2]. unfold uside, on_line. destruct k as [|[|[|k]]]; intros; lra. Qed.
Lemma line_peq xa xb ya yb k x y : peq x y -> on_line xa xb ya yb k x -> on_line xa xb ya yb k y.
Proof. intros [E1 E2]. unfold on_line. destruct k as [|[|[|k]]]; intros; lra. Qed.
Lemma quarter_uside k i x : k < 4 -> i < 4 -> unit_pt x -> (uside k (quarter i x) <-> touches k i /\ uside k x).
Proof.
  intros Lk Li [U1 U2]. unfold uside, on_line, touches, quarter.
  destruct i as [|[|[|[|]]]]; try lia; destruct k as [|[|[|[|]]]]; try lia; unfold corner; cbn [nth fst snd Nat.add Nat.modulo Nat.divmod Nat.sub];
    split; [intros E; split; [try (left; reflexivity); try (right; reflexivity); exfalso; lra|lra]|intros [T E]; try lra; exfalso; destruct T; discriminate| | | | | | | | | | | | | | | | | | | | | | | | | | | | | | ];
    try (intros E; split; [try (left; reflexivity); try (right; reflexivity); exfalso; lra|lra]); intros [T E]; try lra; exfalso; destruct T; discriminate.
Qed.
Lemma root_uside k x : k < 4 -> unit_pt x -> forall q, Forall (fun i => i < 4) q -> (uside k (in_root q x) <-> Forall (touches k) q /\ uside k x).
Proof.
  intros Lk U q. induction q as [|i q IH]; intros F; cbn [in_root].
  - split; [intros E; split; auto|tauto].
  - inversion F; subst. rewrite quarter_uside by (auto; apply unit_root; auto). rewrite IH by auto. split.
    + intros [A [B C]]. split; auto.
    + intros [A B]. inversion A; subst. auto.
Qed.
Lemma corner_uside k i : k < 4 -> i < 4 -> (uside k (corner i) <-> touches k i).
Proof.
  intros Lk Li. unfold uside, on_line, touches. destruct i as [|[|[|[|]]]]; try lia; destruct k as [|[|[|[|]]]]; try lia; unfold corner; cbn [nth fst snd Nat.add Nat.modulo Nat.divmod Nat.sub];
  (split; [intros E; try (left; reflexivity); try (right; reflexivity); exfalso; lra|intros T; try reflexivity; exfalso; destruct T; discriminate]).
Qed.
Lemma corner_unit i : unit_pt (corner i).
Proof. unfold unit_pt, corner. destruct i as [|[|[|[|[|i]]]]]; cbn; repeat split; lra. Qed.

Section grid.
Context (xa xb ya yb : Q) (nx ny : nat).
Local Notation pts := (grid_points xa xb ya yb nx ny).
Local Notation faces := (grid_faces nx ny).
Context (m0 m : mesh2).
Hypothesis H : mesh_history pts faces m0 m.
Hypothesis Hx : (xa < xb)%Q.
Hypothesis Hy : (ya < yb)%Q.
Let M := history_minv _ _ _ _ H.
Definition at_end (k ix iy : nat) : Prop := match k with 0 => iy = 0 | 1 => S ix = nx | 2 => S iy = ny | _ => ix = 0 end.
Lemma Qn0 n : (Qn n == 0)%Q -> n = 0.
Proof. intros E. destruct n; auto. exfalso. pose proof (Qn_pos (S n) ltac:(lia)). lra. Qed.
Lemma Qn_inj a b : (Qn a == Qn b)%Q -> a = b.
Proof. unfold Qn. intros E. apply (proj2 (Qeq_alt _ _)) in E || idtac. unfold Qeq in E. simpl in E. lia. Qed.
Lemma line_iff k ix iy x : ix < nx -> iy < ny -> unit_pt x -> k < 4 ->
  (on_line xa xb ya yb k (plane m (iy * nx + ix, x)) <-> at_end k ix iy /\ uside k x).
Proof.
  intros Lx Ly [U1 U2] Lk. pose proof (grid_plane xa xb ya yb nx ny m M ix iy x Lx Ly) as E.
  assert (P : on_line xa xb ya yb k (plane m (iy * nx + ix, x)) <-> on_line xa xb ya yb k (xa + (Qn ix + fst x) * ((xb - xa) / Qn nx), ya + (Qn iy + snd x) * ((yb - ya) / Qn ny))%Q)
    by (split; apply line_peq; auto; apply peq_s; auto). rewrite P. clear P E.
  pose proof (Qn_pos nx ltac:(lia)) as Px. pose proof (Qn_pos ny ltac:(lia)) as Py.
  assert (Z : forall (a b u : Q) n, (0 < Qn n)%Q -> (a < b)%Q -> ((a + u * ((b - a) / Qn n) == a <-> u == 0) /\ (a + u * ((b - a) / Qn n) == b <-> u == Qn n))%Q).
  { intros a b u n Pn L. assert (Zp : (0 < (b - a) / Qn n)%Q) by (apply Qlt_shift_div_l; lra). set (h := ((b - a) / Qn n)%Q) in *.
    assert (Eb : (b == a + Qn n * h)%Q) by (unfold h; field; lra). split.
    - split; [intros E|intros ->; ring]. assert (Y : (u * h == 0 * h)%Q) by lra. apply (Qmult_inj_r u 0 h); lra.
    - split; [intros E|intros ->; symmetry; exact Eb]. assert (Y : (u * h == Qn n * h)%Q) by lra. apply (Qmult_inj_r u (Qn n) h); lra. }
  assert (LOW : forall n u, (0 <= u <= 1)%Q -> (Qn n + u == 0 <-> n = 0%nat /\ u == 0)%Q).
  { intros n u Hu. split.
    - intros E. pose proof (Qn_le 0 n ltac:(lia)) as L0. change (Qn 0) with 0%Q in L0. split; [apply Qn0; lra|lra].
    - intros [-> E]. change (Qn 0) with 0%Q. lra. }
  assert (UP : forall n N u, n < N -> (0 <= u <= 1)%Q -> (Qn n + u == Qn N <-> S n = N /\ u == 1)%Q).
  { intros n N u L Hu. pose proof (Qn_S n) as ES. split.
    - intros E. pose proof (Qn_le (S n) N L) as L0. split; [|lra]. assert (F : (Qn (S n) == Qn N)%Q) by lra. apply Qn_inj in F. auto.
    - intros [<- E]. lra. }
  destruct (Z xa xb (Qn ix + fst x)%Q nx Px Hx) as [ZA ZB]. destruct (Z ya yb (Qn iy + snd x)%Q ny Py Hy) as [ZC ZD].
  unfold on_line, uside, at_end. destruct k as [|[|[|[|]]]]; try lia; cbn [fst snd on_line].
  - rewrite ZC. apply LOW; auto.
  - rewrite ZB. apply UP; auto.
  - rewrite ZD. apply UP; auto.
  - rewrite ZA. apply LOW; auto.
Qed.
Lemma outer_iff k ix iy : ix < nx -> iy < ny -> k < 4 -> (outer_side faces (iy * nx + ix) k <-> at_end k ix iy).
Proof.
  intros Lx Ly Lk. destruct (C25_grid_size nx ny) as [d [Ed [Ep [_ [_ [_ [_ EL]]]]]]].
  assert (Ed' : determine2 (length pts) faces = Ok d) by (rewrite (EL xa xb ya yb), Ep; exact Ed).
  destruct (C67_coarse _ _ _ _ d (fun _ _ => false) (fun _ _ => false) H Ed') as [_ BH].
  assert (Lr : iy * nx + ix < length faces) by (rewrite grid_faces_length; nia).
  pose proof (history_minv _ _ _ _ (hist0 _ _ _ _ H)) as M0.
  assert (Sd : is_side m0 [iy * nx + ix] k (4 * (iy * nx + ix) + k)).
  { apply is_side_iff; [apply M0|]. split; [apply (m_roots _ _ _ M0); auto|]. split; auto. symmetry. apply (m_base _ _ _ M0 _ k Lr Lk). }
  assert (O : outer_side faces (iy * nx + ix) k <-> In (4 * (iy * nx + ix) + k) (boundary_hes d)).
  { rewrite BH. split; [intros O; eauto|]. intros [r [j [S2 O]]]. apply (is_side_iff _ _ _ _ (m_s _ _ _ M0)) in Sd, S2. destruct Sd as [H1 [_ E1]], S2 as [H2 [L2 E2]].
    destruct (QuadInv.side_inj (m_s _ _ _ M0) _ _ _ _ H1 H2 Lk L2 ltac:(congruence)) as [Er ->]. injection Er as ->. auto. }
  rewrite O. destruct (C25_adjacency nx ny d ix iy Ed Lx Ly) as [Hh [T0 [T1 [T2 [T3 _]]]]]. cbv zeta in *.
  destruct (Hh k Lk) as [x [Ex _]]. assert (Lh : 4 * (iy * nx + ix) + k < length (d_hes d)) by (apply nth_error_Some; congruence).
  assert (IB : In (4 * (iy * nx + ix) + k) (boundary_hes d) <-> nth_error (d_twin d) (4 * (iy * nx + ix) + k) = Some None).
  { unfold boundary_hes. rewrite filter_In, in_seq. destruct (nth_error (d_twin d) (4 * (iy * nx + ix) + k)) as [[t|]|]; split; try (intros [_ A]; congruence); try congruence; intros _; auto. split; [lia|auto]. }
  rewrite IB. unfold at_end. destruct k as [|[|[|[|]]]]; try lia.
  - rewrite T0. destruct iy; split; congruence.
  - rewrite T1. destruct (Nat.eqb_spec (S ix) nx); split; congruence.
  - rewrite T2. destruct (Nat.eqb_spec (S iy) ny); split; congruence.
  - rewrite T3. destruct ix; split; congruence.
Qed.
(** a point of a cell on the edge [k] of the rectangle *)
Lemma cell_line k p x : k < 4 -> here m p -> unit_pt x ->
  (on_line xa xb ya yb k (plane m (place p x)) <-> exists r q, p = r :: q /\ outer_side faces r k /\ Forall (touches k) q /\ uside k x).
Proof.
  intros Lk Hp U. destruct p as [|r q]; [destruct (here_ne m _ Hp); auto|].
  assert (Lr : r < nx * ny). { rewrite <- grid_faces_length. apply (m_roots _ _ _ M). apply (here_prefix m [r] q); [discriminate|exact Hp]. }
  assert (F4 : Forall (fun i => i < 4) q).
  { apply Forall_forall. intros i Ii. apply in_split in Ii. destruct Ii as [q1 [q2 ->]]. assert (Hi : here m ((r :: q1) ++ [i])) by (apply (here_prefix m _ q2); [destruct q1; discriminate|rewrite <- app_assoc; exact Hp]).
    apply (s_fam _ (m_s _ _ _ M) (r :: q1) i) in Hi; [tauto|discriminate]. }
  destruct (grid_cell _ _ _ Lr) as [ix [iy [Lx [Ly ->]]]]. unfold place. cbn [hd tl].
  rewrite line_iff by (auto; apply unit_root; auto). rewrite root_uside by auto. rewrite <- outer_iff by auto. split.
  - intros [A [B C]]. exists (iy * nx + ix), q. auto.
  - intros [r' [q' [E [A [B C]]]]]. injection E as <- <-. auto.
Qed.
Lemma corner_plane p k : here m p -> k < 4 -> peq (vx (hp m) (hbase (he (hp m) (side m p k)))) (plane m (place p (corner k))).
Proof.
  intros Hp Lk. eapply peq_t; [|apply (plane_place _ _ m M p (corner k) Hp)]. unfold cquad, qmap, peq, corner. destruct k as [|[|[|[|]]]]; try lia; cbn [nth fst snd]; split; ring.
Qed.
(** a side of a leaf is on the boundary if and only if its ends are on one edge of
    the rectangle *)
Lemma box_side sf p k h : sub_leaf (cells m) sf p -> is_side m p k h ->
  (on_outer faces m sf h <-> exists j, j < 4 /\ on_line xa xb ya yb j (vx (hp m) (hbase (he (hp m) h))) /\ on_line xa xb ya yb j (vx (hp m) (hhead (he (hp m) h)))).
Proof.
  intros Lp Sd. pose proof (m_s _ _ _ M) as Iv. pose proof Sd as Sd'. apply (is_side_iff _ _ _ _ Iv) in Sd'. destruct Sd' as [Hp [Lk Eh]].
  destruct (side_good Iv p k Hp Lk) as [_ [_ [Ehd _]]].
  assert (L1 : forall j, j < 4 -> (on_line xa xb ya yb j (vx (hp m) (hbase (he (hp m) h))) <-> exists r q, p = r :: q /\ outer_side faces r j /\ Forall (touches j) q /\ touches j k)).
  { intros j Lj. pose proof (corner_plane p k Hp Lk) as E. rewrite <- Eh in E. pose proof (cell_line j p (corner k) Lj Hp (corner_unit k)) as CL. pose proof (corner_uside j k Lj Lk) as CU. split.
    - intros A. apply (line_peq _ _ _ _ _ _ _ E) in A. apply CL in A. destruct A as [r [q [A1 [A2 [A3 A4]]]]]. exists r, q. apply CU in A4. auto.
    - intros [r [q [A1 [A2 [A3 A4]]]]]. apply (line_peq _ _ _ _ _ _ _ (peq_s _ _ E)). apply CL. exists r, q. apply CU in A4. auto. }
  assert (L2 : forall j, j < 4 -> (on_line xa xb ya yb j (vx (hp m) (hhead (he (hp m) h))) <-> exists r q, p = r :: q /\ outer_side faces r j /\ Forall (touches j) q /\ touches j ((k + 1) mod 4))).
  { intros j Lj. pose proof (corner_plane p _ Hp (m4_lt (k + 1))) as E. rewrite <- Ehd, <- Eh in E. pose proof (cell_line j p (corner ((k + 1) mod 4)) Lj Hp (corner_unit _)) as CL. pose proof (corner_uside j _ Lj (m4_lt (k + 1))) as CU. split.
    - intros A. apply (line_peq _ _ _ _ _ _ _ E) in A. apply CL in A. destruct A as [r [q [A1 [A2 [A3 A4]]]]]. exists r, q. apply CU in A4. auto.
    - intros [r [q [A1 [A2 [A3 A4]]]]]. apply (line_peq _ _ _ _ _ _ _ (peq_s _ _ E)). apply CL. exists r, q. apply CU in A4. auto. }
  split.
  - intros [r [k' [O [q [F [L S']]]]]]. apply (is_side_iff _ _ _ _ Iv) in S'. destruct S' as [H' [Lk' E']].
    destruct (QuadInv.side_inj Iv _ _ _ _ Hp H' Lk Lk' ltac:(congruence)) as [Ep <-]. exists k. split; auto. split; [apply L1|apply L2]; auto; exists r, q; repeat (split; auto); [left|right]; auto.
  - intros [j [Lj [A B]]]. apply L1 in A; auto. apply L2 in B; auto. destruct A as [r [q [Ep [O [F T1]]]]]. destruct B as [_ [_ [_ [_ [_ T2]]]]].
    assert (j = k). { clear - Lj Lk T1 T2. destruct j as [|[|[|[|]]]], k as [|[|[|[|]]]]; try lia; cbv in T1, T2; lia. }
    subst j. exists r, k. split; auto. exists q. subst p. auto.
Qed.
End grid.

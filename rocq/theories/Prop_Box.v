(** * C67: the boundary of a refined rectangular grid, in coordinates; the bounding box *)
From Coq Require Import List Arith Bool Lia Permutation QArith Lqa.
From Verif Require Import Tree Forest SpecForest Geom SpecGeom Dcel SpecDcel DcelFacts GridFacts Segments Quad SpecQuad QuadFacts QuadInv QuadInit QuadHist Solver Prop_Dcel Prop_Grid Prop_Segments Prop_QuadMesh
  Dof SpecDof Dof2 SpecDof2 SurfFacts Node2Facts Surf2 Dof2Facts Dof2Hist Region SpecRegion RegionFacts RegionMain Prop_Region BoxFacts.
Import ListNotations.
Open Scope nat_scope.

(** After every history, the one boundary segment of a rectangular grid consists
    of the sides of the leaves of the submesh that lie on an edge of the
    rectangle (both ends do). *)
Theorem C67_box nx ny (xa xb ya yb : Q) m0 m sf hl vl : 0 < nx -> 0 < ny -> (xa < xb)%Q -> (ya < yb)%Q ->
  mesh_history (grid_points xa xb ya yb nx ny) (grid_faces nx ny) m0 m -> submesh_rooted (cells m) sf ->
  exists s, get_boundary_segments (mkR m (nh (hp m0)) hl vl) sf None = Ok [s] /\ NoDup s /\
    forall h, In h s <-> exists p k j, sub_leaf (cells m) sf p /\ is_side m p k h /\ j < 4 /\
      on_line xa xb ya yb j (vx (hp m) (hbase (he (hp m) h))) /\ on_line xa xb ya yb j (vx (hp m) (hhead (he (hp m) h))).
Proof.
  intros Px Py Hx Hy H Rt. destruct (C67_rectangle nx ny xa xb ya yb m0 m sf hl vl Px Py H Rt) as [s [E [N [_ [_ [_ [I _]]]]]]].
  exists s. split; auto. split; auto. intros h. rewrite I. split.
  - intros O. pose proof O as [r [k [_ [q [_ [L Sd]]]]]]. pose proof (proj1 (box_side xa xb ya yb nx ny m0 m H Hx Hy sf (r :: q) k h L Sd) O) as [j [Lj [A B]]].
    exists (r :: q), k, j. auto.
  - intros [p [k [j [L [Sd [Lj [A B]]]]]]]. apply (box_side xa xb ya yb nx ny m0 m H Hx Hy sf p k h L Sd). eauto.
Qed.
Print Assumptions C67_box.

(** A case: one cell of two refined (the mesh of C67_case) *)
Example C67_box_case : exists m0, mesh_history (grid_points 0 2 0 1 2 1) (grid_faces 2 1) m0 (got ex_mesh) /\ submesh_rooted (cells (got ex_mesh)) None /\
  peq (vx (hp (got ex_mesh)) (hbase (he (hp (got ex_mesh)) 48))) (2, 1)%Q /\ peq (vx (hp (got ex_mesh)) (hhead (he (hp (got ex_mesh)) 48))) (3 # 2, 1)%Q.
Proof.
  destruct C67_case as [m0 [H [_ [R _]]]]. exists m0. split; auto. split; auto. split; vm_compute; split; reflexivity.
Qed.

(** ** C72: the bounding box *)
Lemma minQ_le a b : (minQ a b <= a)%Q /\ (minQ a b <= b)%Q /\ (minQ a b = a \/ minQ a b = b).
Proof. unfold minQ. destruct (Qle_bool a b) eqn:E; [apply Qle_bool_iff in E; repeat split; auto; lra|]. assert (~ (a <= b)%Q) by (intro L; apply Qle_bool_iff in L; congruence). repeat split; auto; lra. Qed.
Lemma maxQ_le a b : (a <= maxQ a b)%Q /\ (b <= maxQ a b)%Q /\ (maxQ a b = a \/ maxQ a b = b).
Proof. unfold maxQ. destruct (Qle_bool a b) eqn:E; [apply Qle_bool_iff in E; repeat split; auto; lra|]. assert (~ (a <= b)%Q) by (intro L; apply Qle_bool_iff in L; congruence). repeat split; auto; lra. Qed.
Lemma fold_min l : forall a, (fold_left minQ l a <= a)%Q /\ (forall x, In x l -> (fold_left minQ l a <= x)%Q) /\ In (fold_left minQ l a) (a :: l).
Proof.
  induction l as [|b l IH]; intros a; cbn [fold_left]; [split; [lra|]; split; [intros x []|left; auto]|].
  destruct (IH (minQ a b)) as [A [B C]]. destruct (minQ_le a b) as [D [E F]]. split; [lra|]. split.
  - intros x [<-|Ix]; [lra|auto].
  - destruct C as [C|C]; [|right; right; auto]. rewrite <- C. destruct F as [-> | ->]; [left|right; left]; auto.
Qed.
Lemma fold_max l : forall a, (a <= fold_left maxQ l a)%Q /\ (forall x, In x l -> (x <= fold_left maxQ l a)%Q) /\ In (fold_left maxQ l a) (a :: l).
Proof.
  induction l as [|b l IH]; intros a; cbn [fold_left]; [split; [lra|]; split; [intros x []|left; auto]|].
  destruct (IH (maxQ a b)) as [A [B C]]. destruct (maxQ_le a b) as [D [E F]]. split; [lra|]. split.
  - intros x [<-|Ix]; [lra|auto].
  - destruct C as [C|C]; [|right; right; auto]. rewrite <- C. destruct F as [-> | ->]; [left|right; left]; auto.
Qed.
Definition in_box (b : Q * Q * Q * Q) (z : pt) : Prop :=
  let '(x0, x1, y0, y1) := b in (x0 <= fst z <= x1 /\ y0 <= snd z <= y1)%Q.
Lemma convex_in b v0 v1 v2 v3 x : in_box b v0 -> in_box b v1 -> in_box b v2 -> in_box b v3 -> unit_pt x -> in_box b (qmap (v0, v1, v2, v3) (fst x) (snd x)).
Proof.
  destruct b as [[[x0 x1] y0] y1]. unfold in_box, unit_pt, qmap. destruct x as [s t]. cbn [fst snd]. intros [A1 B1] [A2 B2] [A3 B3] [A4 B4] [[S0 S1] [T0 T1]].
  assert (W : forall a b : Q, (0 <= a)%Q -> (0 <= b)%Q -> (0 <= a * b)%Q) by (intros; apply Qmult_le_0_compat; auto).
  assert (C : forall lo hi a b c d : Q, (lo <= a <= hi)%Q -> (lo <= b <= hi)%Q -> (lo <= c <= hi)%Q -> (lo <= d <= hi)%Q ->
     (lo <= a * (1 - s) * (1 - t) + b * s * (1 - t) + c * s * t + d * (1 - s) * t <= hi)%Q).
  { intros lo hi a b c d Ha Hb Hc Hd.
    pose proof (W _ _ (W (1 - s) (1 - t) ltac:(lra) ltac:(lra)) (proj1 (Qle_minus_iff lo a) (proj1 Ha)))%Q.
    pose proof (W _ _ (W (1 - s) (1 - t) ltac:(lra) ltac:(lra)) (proj1 (Qle_minus_iff a hi) (proj2 Ha)))%Q.
    pose proof (W _ _ (W s (1 - t) ltac:(lra) ltac:(lra)) (proj1 (Qle_minus_iff lo b) (proj1 Hb)))%Q.
    pose proof (W _ _ (W s (1 - t) ltac:(lra) ltac:(lra)) (proj1 (Qle_minus_iff b hi) (proj2 Hb)))%Q.
    pose proof (W _ _ (W s t ltac:(lra) ltac:(lra)) (proj1 (Qle_minus_iff lo c) (proj1 Hc)))%Q.
    pose proof (W _ _ (W s t ltac:(lra) ltac:(lra)) (proj1 (Qle_minus_iff c hi) (proj2 Hc)))%Q.
    pose proof (W _ _ (W (1 - s) t ltac:(lra) ltac:(lra)) (proj1 (Qle_minus_iff lo d) (proj1 Hd)))%Q.
    pose proof (W _ _ (W (1 - s) t ltac:(lra) ltac:(lra)) (proj1 (Qle_minus_iff d hi) (proj2 Hd)))%Q.
    split; lra. }
  split; apply C; auto.
Qed.
(** bounding_box() of a mesh, after every history: the tightest box around the
    points of the mesh; every point of every cell is in it, refined or not. *)
Theorem C72_bounding_box pts faces m0 m : mesh_history pts faces m0 m -> pts <> [] ->
  exists x0 x1 y0 y1, bounding_box pts = Ok (x0, x1, y0, y1) /\
    In x0 (map fst pts) /\ In x1 (map fst pts) /\ In y0 (map snd pts) /\ In y1 (map snd pts) /\
    (forall z, In z pts -> in_box (x0, x1, y0, y1) z) /\
    (forall p c v0 v1 v2 v3 x, fget (cells m) p = Some c -> coords m c = [v0; v1; v2; v3] -> unit_pt x ->
       in_box (x0, x1, y0, y1) (qmap (v0, v1, v2, v3) (fst x) (snd x))).
Proof.
  intros H Ne. destruct pts as [|z0 r]; [congruence|]. cbn [bounding_box].
  destruct (fold_min (map fst r) (fst z0)) as [A1 [A2 A3]]. destruct (fold_max (map fst r) (fst z0)) as [B1 [B2 B3]].
  destruct (fold_min (map snd r) (snd z0)) as [C1 [C2 C3]]. destruct (fold_max (map snd r) (snd z0)) as [D1' [D2' D3']].
  set (x0 := fold_left minQ (map fst r) (fst z0)) in *. set (x1 := fold_left maxQ (map fst r) (fst z0)) in *.
  set (y0 := fold_left minQ (map snd r) (snd z0)) in *. set (y1 := fold_left maxQ (map snd r) (snd z0)) in *.
  exists x0, x1, y0, y1. split; auto. split; [exact A3|]. split; [exact B3|]. split; [exact C3|]. split; [exact D3'|].
  assert (IN : forall z, In z (z0 :: r) -> in_box (x0, x1, y0, y1) z).
  { intros z [<-|Iz]; unfold in_box; [repeat split; lra|]. pose proof (in_map fst _ _ Iz) as I1. pose proof (in_map snd _ _ Iz) as I2. repeat split; auto. }
  split; auto. intros p c v0 v1 v2 v3 x Ec Ev U. pose proof (history_minv _ _ _ _ H) as M.
  assert (Hp : here m p) by (apply here_fget; eauto).
  assert (Q : QuadCoords.cquad m p = (v0, v1, v2, v3)) by (rewrite <- (coords_quad m p c (m_s _ _ _ M) Ec), Ev; reflexivity).
  assert (PL : in_box (x0, x1, y0, y1) (plane m (place p x))).
  { unfold plane, place. cbn [fst snd]. assert (Hr : here m [hd 0 p]). { destruct p as [|u p]; [destruct (here_ne m _ Hp); auto|]. apply (here_prefix m [u] p); [discriminate|exact Hp]. }
    apply (m_roots _ _ _ M) in Hr. set (w := hd 0 p) in *.
    assert (CO : forall k, k < 4 -> In (vx (hp m) (B (hp m) (side m [w] k))) (z0 :: r)).
    { intros k Lk. destruct (m_base _ _ _ M w k Hr Lk) as [E1 E2]. rewrite E1, E2. destruct H as [PM [QF _]].
      assert (Lv : fvert faces w k < length (z0 :: r)).
      { unfold fvert. pose proof (nth_In faces [] Hr) as If. destruct PM as [_ [PM _]]. unfold quad_faces in QF. rewrite Forall_forall in QF. destruct (QF _ If) as [_ L4].
        rewrite Forall_forall in PM. pose proof (PM _ If) as PF. rewrite Forall_forall in PF. apply PF. apply nth_In. rewrite L4. auto. }
      destruct (m_vx _ _ _ M) as [_ V]. rewrite V by auto. apply nth_In. auto. }
    unfold QuadCoords.cquad. apply convex_in; try (apply unit_root; auto); apply IN, CO; lia. }
  pose proof (plane_place _ _ m M p x Hp) as E. rewrite Q in E. destruct E as [E1 E2]. unfold in_box in *. rewrite E1, E2. exact PL.
Qed.
Print Assumptions C72_bounding_box.

(** A case *)
Example C72_case : exists m0, mesh_history (grid_points 0 2 0 1 2 1) (grid_faces 2 1) m0 (got ex_mesh) /\
  match bounding_box (grid_points 0 2 0 1 2 1) with Ok (x0, x1, y0, y1) => x0 == 0 /\ x1 == 2 /\ y0 == 0 /\ y1 == 1 | Err _ => False end%Q.
Proof. destruct C67_case as [m0 [H _]]. exists m0. split; auto. vm_compute. repeat split; reflexivity. Qed.

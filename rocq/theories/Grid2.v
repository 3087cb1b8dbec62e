(** * Rectangular grids: one point of the plane is one point of the surface (for C49) *)
From Coq Require Import List Arith Bool Lia QArith Lqa.
From Verif Require Import Tree Forest Geom SpecGeom Dcel SpecDcel Quad SpecForest TreeFacts ForestFacts QuadFacts QuadSplit QuadInv SpecQuad QuadNb
  DcelFacts GridFacts QuadInit QuadUniq QuadStart QuadCoords QuadHist Prop_Grid Prop_QuadMesh Prop_Balance Fem SpecFem Prop_Inherit Dof SpecDof DofFacts DofInv
  Dof2 SpecDof2 SurfFacts Node2Facts VertNb Surf2 Dof2Facts Dof2Hist.
Import ListNotations.
Open Scope nat_scope.

Section grid.
Context (xa xb ya yb : Q) (nx ny : nat) (m : mesh2).
Local Notation pts := (grid_points xa xb ya yb nx ny).
Local Notation faces := (grid_faces nx ny).
Hypothesis M : minv pts faces m.
Hypothesis Hx : (xa < xb)%Q.
Hypothesis Hy : (ya < yb)%Q.

Lemma grid_vx x y : x <= nx -> y <= ny -> vx (hp m) (grid_idx nx x y) = (linspace xa xb nx x, linspace ya yb ny y).
Proof.
  intros Lx Ly. pose proof (grid_points_nth xa xb ya yb nx ny x y Lx Ly) as E. destruct (m_vx _ _ _ M) as [_ V]. rewrite V.
  - apply nth_error_nth. auto.
  - apply nth_error_Some. congruence.
Qed.
Lemma grid_plane ix iy x : ix < nx -> iy < ny ->
  peq (plane m (iy * nx + ix, x)) (xa + (Qn ix + fst x) * ((xb - xa) / Qn nx), ya + (Qn iy + snd x) * ((yb - ya) / Qn ny))%Q.
Proof.
  intros Lx Ly. unfold plane, cquad. cbn [fst snd].
  assert (L : iy * nx + ix < length faces) by (rewrite grid_faces_length; nia).
  rewrite !(root_coords pts faces m M) by lia. unfold fvert. rewrite (nth_error_nth _ _ _ (grid_faces_nth nx ny ix iy Lx Ly)). unfold grid_face. cbn [nth].
  rewrite !grid_vx by lia. unfold peq, qmap, linspace. cbn [fst snd]. rewrite !Nat.add_1_r, !Qn_S. split; ring.
Qed.
Lemma grid_adj_x ix iy : ix + 1 < nx -> iy < ny -> face_adj faces (iy * nx + ix) 1 (iy * nx + (ix + 1)) 3.
Proof.
  intros Lx Ly. eexists _, _, _. split; [apply grid_faces_nth; lia|]. split; [apply grid_faces_nth; lia|].
  unfold grid_face. split; reflexivity.
Qed.
Lemma grid_adj_y ix iy : ix < nx -> iy + 1 < ny -> face_adj faces (iy * nx + ix) 2 ((iy + 1) * nx + ix) 0.
Proof.
  intros Lx Ly. eexists _, _, _. split; [apply grid_faces_nth; lia|]. split; [apply grid_faces_nth; lia|].
  unfold grid_face. split; reflexivity.
Qed.
Local Notation G := (glued (face_adj faces)).
Lemma grid_sym a b : G a b -> G b a.
Proof. apply glue_sym. apply (adj_sym pts faces m (grid_quads nx ny) M). Qed.
Lemma glue_x ix iy s s' t : ix + 1 < nx -> iy < ny -> (s == 1)%Q -> (s' == 0)%Q -> (0 <= t <= 1)%Q ->
  G (iy * nx + ix, (s, t)) (iy * nx + (ix + 1), (s', t)).
Proof.
  intros Lx Ly E1 E2 Ht. apply (gl_side _ _ 1 _ 3 t); auto; [apply grid_adj_x; auto| |];
    unfold peq, side_pt, corner; cbn [nth fst snd Nat.add Nat.modulo Nat.divmod Nat.sub]; split; lra.
Qed.
Lemma glue_y ix iy s t t' : ix < nx -> iy + 1 < ny -> (t == 1)%Q -> (t' == 0)%Q -> (0 <= s <= 1)%Q ->
  G (iy * nx + ix, (s, t)) ((iy + 1) * nx + ix, (s, t')).
Proof.
  intros Lx Ly E1 E2 Ht. apply (gl_side _ _ 2 _ 0 (1 - s)%Q); [apply grid_adj_y; auto|lra| |];
    unfold peq, side_pt, corner; cbn [nth fst snd Nat.add Nat.modulo Nat.divmod Nat.sub]; split; lra.
Qed.
Lemma Qn_le a b : (a <= b)%nat -> (Qn a <= Qn b)%Q.
Proof. intro L. unfold Qn. rewrite <- Zle_Qle. lia. Qed.
Lemma near a b (s s' : Q) : (0 <= s <= 1)%Q -> (0 <= s' <= 1)%Q -> (Qn a + s == Qn b + s')%Q ->
  a = b /\ (s == s')%Q \/ b = a + 1 /\ (s == 1)%Q /\ (s' == 0)%Q \/ a = b + 1 /\ (s == 0)%Q /\ (s' == 1)%Q.
Proof.
  intros Hs Hs' E. destruct (Nat.lt_trichotomy a b) as [L|[->|L]].
  - right. left. pose proof (Qn_le (S a) b L) as Z. rewrite Qn_S in Z. destruct (Nat.eq_dec b (a + 1)) as [->|N].
    + rewrite Nat.add_1_r, Qn_S in E. split; auto. split; lra.
    + exfalso. pose proof (Qn_le (S (S a)) b ltac:(lia)) as Y. rewrite !Qn_S in Y. lra.
  - left. split; auto. lra.
  - right. right. pose proof (Qn_le (S b) a L) as Z. rewrite Qn_S in Z. destruct (Nat.eq_dec a (b + 1)) as [->|N].
    + rewrite Nat.add_1_r, Qn_S in E. split; auto. split; lra.
    + exfalso. pose proof (Qn_le (S (S b)) a ltac:(lia)) as Y. rewrite !Qn_S in Y. lra.
Qed.
Lemma scale (a b c u v : Q) n : 0 < n -> (a < b)%Q -> (a + u * ((b - a) / Qn n) == a + v * ((b - a) / Qn n))%Q -> (u == v)%Q.
Proof.
  intros Ln L E. pose proof (Qn_pos n Ln) as P. assert (Z : (0 < (b - a) / Qn n)%Q) by (apply Qlt_shift_div_l; lra).
  set (h := ((b - a) / Qn n)%Q) in *. assert (Y : (u * h == v * h)%Q) by lra. apply (Qmult_inj_r u v h); lra.
Qed.
Lemma grid_one_point r r' x x' : r < nx * ny -> r' < nx * ny -> unit_pt x -> unit_pt x' ->
  peq (plane m (r, x)) (plane m (r', x')) -> G (r, x) (r', x').
Proof.
  intros L L' [Us Ut] [Us' Ut'] E.
  destruct (grid_cell _ _ _ L) as [ix [iy [Lx [Ly ->]]]]. destruct (grid_cell _ _ _ L') as [ix' [iy' [Lx' [Ly' ->]]]].
  pose proof (peq_t _ _ _ (peq_s _ _ (grid_plane ix iy x Lx Ly)) (peq_t _ _ _ E (grid_plane ix' iy' x' Lx' Ly'))) as [E1 E2]. cbn [fst snd] in E1, E2.
  apply (scale xa xb 0) in E1; [|lia|auto]. apply (scale ya yb 0) in E2; [|lia|auto].
  destruct x as [s t]. destruct x' as [s' t']. cbn [fst snd] in *.
  apply gl_trans with (iy * nx + ix', (s', t)).
  - destruct (near _ _ _ _ Us Us' E1) as [[-> F]|[[-> [F1 F2]]|[-> [F1 F2]]]].
    + apply gl_same. split; cbn; [auto|reflexivity].
    + apply glue_x; auto.
    + apply grid_sym. apply glue_x; auto.
  - destruct (near _ _ _ _ Ut Ut' E2) as [[-> F]|[[-> [F1 F2]]|[-> [F1 F2]]]].
    + apply gl_same. split; cbn; [reflexivity|auto].
    + apply glue_y; auto.
    + apply grid_sym. apply glue_y; auto.
Qed.
End grid.

(** * Meshes of quadrilaterals given by points and faces (for C28-C30) *)
From Coq Require Import List Arith Bool Lia QArith.
From Verif Require Import Tree Forest Geom SpecGeom Dcel SpecDcel Quad SpecForest TreeFacts ForestFacts QuadFacts QuadSplit QuadInv SpecQuad QuadNb DcelFacts QuadInit QuadUniq Prop_Dcel.
Import ListNotations.
Open Scope nat_scope.


Lemma qf_nth faces f : quad_faces faces -> f < length faces -> NoDup (nth f faces []) /\ length (nth f faces []) = 4.
Proof. intros Q L. unfold quad_faces in Q. rewrite Forall_forall in Q. apply Q. apply nth_In; auto. Qed.

Lemma next_ne fc k : NoDup fc -> length fc = 4 -> k < 4 -> nth k fc 0 <> nth ((k + 1) mod 4) fc 0.
Proof.
  intros ND L4 Lk E. apply (proj1 (NoDup_nth _ 0) ND) in E; rewrite ?L4; auto.
  clear - E Lk. destruct k as [|[|[|[|k]]]]; try discriminate; lia.
Qed.
Lemma conn_nth n faces d h : quad_faces faces -> determine2 n faces = Ok d -> h < 4 * length faces ->
  exists r, nth_error (d_hes d) h = Some r /\ h_conn r = conn faces h.
Proof.
  intros QF E L. destruct (determine2_inv _ _ _ E) as [_ [_ [Eh _]]]. rewrite Eh.
  assert (Lf : h / 4 < length faces) by (apply Nat.div_lt_upper_bound; lia).
  destruct (nth_error faces (h / 4)) as [fc|] eqn:Ef; [|apply nth_error_None in Ef; lia].
  pose proof (nth_error_nth _ _ [] Ef) as En. destruct (qf_nth faces (h / 4) QF Lf) as [_ QL]. rewrite En in QL.
  assert (Of : forall f, f <= length faces -> offset faces f = 4 * f).
  { induction f as [|f IH]; intros Lf'; [reflexivity|].
    destruct (nth_error faces f) as [fc'|] eqn:Ef'; [|apply nth_error_None in Ef'; lia].
    rewrite (offset_S _ _ _ Ef'), IH by lia. apply nth_error_nth with (d := []) in Ef'.
    destruct (qf_nth faces f QF ltac:(lia)) as [_ Q4]. rewrite Ef' in Q4. lia. }
  assert (Lm : h mod 4 < length fc) by (rewrite QL; apply Nat.mod_upper_bound; lia).
  pose proof (all_hes_nth faces 0 0 (h / 4) fc (h mod 4) Ef Lm) as A. rewrite Of in A by lia. rewrite <- div4_of in A.
  rewrite A. eexists. split; [reflexivity|]. cbn [h_conn]. unfold conn, fvert. rewrite En, QL. reflexivity.
Qed.

Lemma quad_dcel_of n faces d : polygon_mesh n faces -> quad_faces faces -> determine2 n faces = Ok d -> quad_dcel false n faces d.
Proof.
  intros PM QF E. destruct (determine2_inv _ _ _ E) as [_ [Ef [Eh [Et [Efh _]]]]].
  assert (LN : length (mesh_edges faces) = 4 * length faces).
  { rewrite mesh_edges_length. clear - QF. induction QF as [|x r [_ L] QF IH]; [reflexivity|]. cbn [map length].
    change (list_sum (length x :: map (length (A:=nat)) r)) with (length x + list_sum (map (length (A:=nat)) r)). rewrite L, IH. lia. }
  assert (TL : length (d_twin d) = 4 * length faces).
  { rewrite Et. unfold twins. rewrite map_length, all_hes_length. auto. }
  constructor; auto.
  - intros f Lf. destruct (all_face_he_ok _ _ _ Efh) as [_ F]. rewrite (F f Lf). cbn [plus]. f_equal.
    clear - QF Lf. assert (G : forall f, f <= length faces -> offset faces f = 4 * f); [|apply G; lia].
    induction f0 as [|g IH]; intros Lf'; [reflexivity|].
    destruct (nth_error faces g) as [fc'|] eqn:Ef'; [|apply nth_error_None in Ef'; lia].
    rewrite (offset_S _ _ _ Ef'), IH by lia. apply nth_error_nth with (d := []) in Ef'.
    destruct (qf_nth faces g QF ltac:(lia)) as [_ Q4]. rewrite Ef' in Q4. lia.
  - intros f Lf. apply qf_nth; auto.
  - intros f k Lf Lk. destruct PM as [_ [PV _]]. rewrite Forall_forall in PV.
    assert (If : In (nth f faces []) faces) by (apply nth_In; auto). specialize (PV _ If). rewrite Forall_forall in PV.
    apply PV. unfold fvert. apply nth_In. destruct (qf_nth faces f QF Lf) as [_ ->]. auto.
  - intros h t ET. assert (Lh : h < 4 * length faces) by (rewrite <- TL; apply nth_error_Some; congruence).
    destruct (conn_nth n faces d h QF E Lh) as [x [Ex Cx]].
    destruct (C24_twin n faces d h x PM E Ex) as [o [Eo [To [Ti _]]]]. rewrite ET in Eo. injection Eo as <-.
    split; [apply Ti; auto|]. destruct (proj1 (To t) eq_refl) as [y [Ey Cy]].
    assert (Lt : t < 4 * length faces).
    { rewrite <- LN, <- (all_hes_length faces 0 0), <- Eh. apply nth_error_Some. congruence. }
    destruct (conn_nth n faces d t QF E Lt) as [y' [Ey' Cy']]. rewrite Ey in Ey'. injection Ey' as <-.
    split.
    + intros ->. rewrite Ex in Ey. injection Ey as <-. rewrite Cx in Cy. pose proof (f_equal fst Cy) as C1. change (fvert faces (h / 4) (h mod 4) = fvert faces (h / 4) ((h mod 4 + 1) mod 4)) in C1.
      assert (Lf : h / 4 < length faces) by (apply Nat.div_lt_upper_bound; lia).
      destruct (qf_nth faces (h / 4) QF Lf) as [ND L4].
      apply (next_ne (nth (h / 4) faces []) (h mod 4) ND L4); auto.
    + left. unfold alignedb. rewrite <- Cx, <- Cy', Cy. unfold opposite. cbn [fst snd]. rewrite !Nat.eqb_refl. auto.
Qed.

(** the mesh of the faces, with its initial uniqueness invariants *)
Theorem start_inv n faces d pts : polygon_mesh n faces -> quad_faces faces -> length pts = n -> determine2 n faces = Ok d ->
  match mesh_of_dcel false pts d with
  | Ok m => sinv m /\ uinv (hp m) /\ corners m /\
      (forall r, here m [r] <-> r < length faces) /\ (forall r i q, ~ here m (r :: i :: q)) /\
      (forall r k, r < length faces -> k < 4 -> side m [r] k = 4 * r + k /\ B (hp m) (4 * r + k) = fvert faces r k) /\
      nv (hp m) = n /\ nh (hp m) = 4 * length faces /\ (forall v, vx (hp m) v = nth v pts (0, 0)%Q) /\
      (forall p, marked_at (cells m) p = fun _ => false) /\
      (forall r, r < length faces -> Qltb 0 (area_of (@face_edges faces pts r)) = true)
  | Err e => e = AssertionError /\ exists r, r < length faces /\ Qltb 0 (area_of (@face_edges faces pts r)) = false
  end.
Proof.
  intros PM QF LP E. pose proof (quad_dcel_of n faces d PM QF E) as QD.
  pose proof (mesh_of_dcel_inv QD LP) as MI. destruct (mesh_of_dcel false pts d) as [m|e]; auto.
  destruct MI as [I [Hr [Hd' [Sd [Nv [Nh [Vx [Mk Ar]]]]]]]].
  assert (Sp : forall h, h < nh (hp m) -> exists r k, r < length faces /\ k < 4 /\ h = 4 * r + k).
  { intros h Lh. rewrite Nh in Lh. exists (h / 4), (h mod 4). split; [apply Nat.div_lt_upper_bound; lia|]. split; auto. apply div4_of. }
  assert (HB : forall h, h < nh (hp m) -> (B (hp m) h, Hd (hp m) h) = conn faces h).
  { intros h Lh. destruct (Sp h Lh) as [r [k [Lr [Lk ->]]]]. unfold conn. destruct (div4 r k Lk) as [-> ->].
    destruct (Sd r k Lr Lk) as [S1 [S2 _]]. rewrite S2. f_equal. rewrite <- S1.
    destruct (side_good I [r] k (proj2 (Hr r) Lr) Lk) as [_ [_ [G _]]]. rewrite G.
    destruct (Sd r ((k + 1) mod 4) Lr ltac:(auto)) as [S1' [S2' _]]. rewrite S1'. auto. }
  assert (HT : forall h, h < nh (hp m) -> T (hp m) h = @dtw d h).
  { intros h Lh. destruct (Sp h Lh) as [r [k [Lr [Lk ->]]]]. apply Sd; auto. }
  assert (HC : forall h, h < nh (hp m) -> exists x, nth_error (d_hes d) h = Some x /\ h_conn x = conn faces h).
  { intros h Lh. apply (conn_nth n); auto. lia. }
  assert (LV : forall f k j, f < length faces -> k < 4 -> j < 4 -> fvert faces f k = fvert faces f j -> k = j).
  { intros f k j Lf Lk Lj Ev. destruct (qf_nth faces f QF Lf) as [ND L4]. unfold fvert in Ev.
    apply (proj1 (NoDup_nth _ 0) ND) in Ev; rewrite ?L4; auto. }
  split; auto. split; [|split; [|split; [auto|split; [auto|split; [|auto 8]]]]].
  - constructor.
    + intros h Lh. destruct (Sp h Lh) as [r [k [Lr [Lk ->]]]]. destruct (Sd r k Lr Lk) as [_ [_ [_ ->]]].
      unfold per_of. destruct (@dtw d (4 * r + k)) as [t|] eqn:Et; auto. apply dtw_some in Et.
      destruct (q_twin _ _ _ _ QD _ _ Et) as [_ [_ [-> |]]]; auto; discriminate.
    + intros h Lh Eq. pose proof (HB h Lh) as C. destruct (Sp h Lh) as [r [k [Lr [Lk ->]]]].
      unfold conn in C. destruct (div4 r k Lk) as [D1 D2]. rewrite D1, D2 in C. pose proof (f_equal fst C) as C1. pose proof (f_equal snd C) as C2.
      change (B (hp m) (4 * r + k) = fvert faces r k) in C1. change (Hd (hp m) (4 * r + k) = fvert faces r ((k + 1) mod 4)) in C2. rewrite Eq, C2 in C1.
      apply LV in C1; auto. clear - C1 Lk. destruct k as [|[|[|[|k]]]]; try discriminate; lia.
    + intros h g Lh Lg E1 E2. destruct (HC h Lh) as [x [Ex Cx]]. destruct (HC g Lg) as [y [Ey Cy]].
      destruct PM as [_ [_ ND]]. destruct (determine2_inv _ _ _ E) as [_ [_ [Eh _]]].
      rewrite <- (all_hes_conn faces 0 0), <- Eh in ND. apply (conn_inj _ _ _ _ _ ND Ex Ey).
      rewrite Cx, Cy, <- !HB by auto. congruence.
    + intros h g a b c d' Lh Lg EK. exfalso. destruct (Sp h Lh) as [r [k [Lr [Lk ->]]]].
      destruct (Sd r k Lr Lk) as [S1 _]. rewrite <- S1 in EK.
      rewrite (s_leaf m I [r] (proj2 (Hr r) Lr)) in EK; [discriminate| |auto]. intros i. apply Hd'.
    + intros h g Lh Lg E1 E2. rewrite HT by auto. apply dtw_some. destruct (HC h Lh) as [x [Ex Cx]]. destruct (HC g Lg) as [y [Ey Cy]].
      destruct (C24_twin n faces d h x PM E Ex) as [o [Eo [To _]]]. rewrite Eo. f_equal. apply To. exists y. split; auto.
      rewrite Cy, Cx, <- !HB by auto. unfold opposite. cbn [fst snd]. congruence.
  - intros p k j Hp Lk Lj Eq. destruct p as [|r [|i q]].
    + destruct (path_nonempty [] Hp); auto.
    + apply Hr in Hp. destruct (Sd r k Hp Lk) as [S1 [S2 _]]. destruct (Sd r j Hp Lj) as [S3 [S4 _]].
      rewrite S1, S3, S2, S4 in Eq. apply LV in Eq; auto.
    + destruct (Hd' r i q Hp).
  - intros r k Lr Lk. destruct (Sd r k Lr Lk) as [? [? _]]. auto.
Qed.

(** * What holds after any history of a mesh of quadrilaterals (for C28-C30) *)
From Coq Require Import List Arith Bool Lia QArith.
From Verif Require Import Tree Forest Geom SpecGeom Dcel SpecDcel Quad SpecForest TreeFacts ForestFacts LabelFacts QuadFacts QuadSplit QuadInv SpecQuad QuadNb DcelFacts QuadInit QuadUniq QuadStart QuadCoords.
Import ListNotations.
Open Scope nat_scope.

Record minv (pts : list pt) (faces : list (list nat)) (m : mesh2) : Prop := {
  m_s : sinv m; m_u : uinv (hp m); m_c : corners m;
  m_roots : forall r, here m [r] <-> r < length faces;
  m_base : forall r k, r < length faces -> k < 4 -> side m [r] k = 4 * r + k /\ B (hp m) (4 * r + k) = fvert faces r k;
  m_vx : length pts <= nv (hp m) /\ forall v, v < length pts -> vx (hp m) v = nth v pts (0, 0)%Q;
  m_kid : forall p i, p <> [] -> here m (p ++ [i]) -> qeq (cquad m (p ++ [i])) (qchild i (cquad m p)) }.

Lemma relabel_info (g : node (list nat) -> node (list nat)) p f q : keeps_slots g ->
  (forall n, n_data (g n) = n_data n /\ m_regular (n_meta (g n)) = m_regular (n_meta n)) ->
  info (fupd p g f) q = info f q.
Proof.
  intros Kg Gd. pose proof (fupd_label p f q Kg) as H.
  destruct (list_eq_dec Nat.eq_dec p q) as [<-|N].
  - unfold info. rewrite fget_fupd_same. destruct (fget f p) as [n|]; auto. simpl. destruct (Gd n) as [-> ->]. rewrite Kg. auto.
  - apply info_obs. auto.
Qed.
Lemma mark_info g p f q : info (fupd p (@mark_here (list nat) g) f) q = info f q.
Proof. apply relabel_info; [apply keeps_mark|]. intros [mt d ks]; split; reflexivity. Qed.
Lemma unmark_info o p f q : info (fupd p (@unmark_here (list nat) o) f) q = info f q.
Proof. apply relabel_info; [apply keeps_unmark|]. intros [mt d ks]; destruct o; split; reflexivity. Qed.

Lemma minv_relabel pts faces m f : (forall q, info f q = info (cells m) q) -> minv pts faces m -> minv pts faces (mkMesh (hp m) f).
Proof.
  intros E [a b c d e f' g]. set (m' := mkMesh (hp m) f).
  assert (Es : forall p k, side m' p k = side m p k) by (intros; apply side_ext; apply E).
  assert (Eh : forall p, here m' p <-> here m p) by (intros; apply here_ext; apply E).
  constructor; auto.
  - apply (sinv_ext m); auto.
  - intros p k j Hp Lk Lj. rewrite !Es. apply c; auto. apply Eh; auto.
  - intros r. rewrite Eh. auto.
  - intros r k Lr Lk. rewrite Es. auto.
  - intros p i Np Hi. unfold cquad. rewrite !Es. apply g; auto. apply Eh; auto.
Qed.

Lemma minv_split pts faces fl p m m' : minv pts faces m -> cell_split fl p m = Ok m' -> minv pts faces m'.
Proof.
  intros [a b c d e f g] E. destruct (split_sinv fl p m m' a E) as [I' [X [Hp [Lf [Old [Hr Sn]]]]]].
  destruct (split_uinv fl p m m' a b c E) as [U' C'].
  pose proof (path_nonempty p Hp) as Np.
  pose proof (split_coords fl p m a Hp Lf) as Q. rewrite E in Q. destruct Q as [Q1 Q2].
  constructor; auto.
  - intros r. rewrite <- d, Hr. split; auto. intros [?|[i [_ Ei]]]; auto. destruct p as [|? [|]]; simpl in Ei; congruence.
  - intros r k Lr Lk. pose proof (proj2 (d r) Lr) as Hr1. destruct (e r k Lr Lk) as [e1 e2]. rewrite (side_ext m m') by (apply Old; auto).
    rewrite (e_b _ _ X); [auto|]. rewrite <- e1. apply (side_good a); auto.
  - destruct f as [f1 f2]. pose proof (e_nv _ _ X). split; [lia|]. intros v Lv. rewrite (e_vx _ _ X) by lia. auto.
  - intros q i Nq Hi. destruct (proj1 (Hr _) Hi) as [Ho|[i' [Li' Ei]]].
    + rewrite !Q2; auto. apply (here_parent m q i); auto.
    + apply app_inj_tail in Ei. destruct Ei as [-> ->]. rewrite (Q2 p Hp). apply Q1; auto.
Qed.

Lemma minv_edits pts faces m m' : edits m m' -> minv pts faces m -> minv pts faces m'.
Proof.
  induction 1 as [m|m m1 m2 H IH S]; auto. intros M. specialize (IH M). destruct S.
  - eapply minv_split; [exact IH|eassumption].
  - apply minv_relabel; auto. intros q. apply mark_info.
  - apply minv_relabel; auto. intros q. apply unmark_info.
Qed.

Theorem history_minv pts faces m0 m : mesh_history pts faces m0 m -> minv pts faces m.
Proof.
  intros [PM [QF [[d [Ed Em]] H]]]. apply (minv_edits _ _ _ _ H).
  pose proof (start_inv (length pts) faces d pts PM QF eq_refl Ed) as S. rewrite Em in S.
  destruct S as [a [b [c [d' [e [f [g1 [g2 [g3 [g4 g5]]]]]]]]]]. constructor; auto.
  - split; [lia|]. auto.
  - intros p i Np Hi. destruct p as [|r q]; [congruence|]. exfalso. destruct q; simpl in Hi; eapply e; eauto.
Qed.

(** the adjacency of the root cells is that of the faces *)
Lemma fvert_nth faces r k : quad_faces faces -> r < length faces -> k < 4 ->
  exists fc, nth_error faces r = Some fc /\ length fc = 4 /\ nth_error (polygon_edges fc) k = Some (fvert faces r k, fvert faces r ((k + 1) mod 4)).
Proof.
  intros QF Lr Lk. destruct (nth_error faces r) as [fc|] eqn:E; [|apply nth_error_None in E; lia].
  exists fc. split; auto. pose proof (nth_error_nth _ _ [] E) as En. destruct (qf_nth faces r QF Lr) as [_ L4]. rewrite En in L4.
  split; auto. rewrite (polygon_edges_nth _ _ 0) by lia. unfold fvert. rewrite En, L4. auto.
Qed.
Lemma adj_faces pts faces m : quad_faces faces -> minv pts faces m ->
  forall r k r' j, radj m r k r' j <-> face_adj faces r k r' j.
Proof.
  intros QF M r k r' j. pose proof (m_s _ _ _ M) as I. split.
  - intros [H1 [H2 [Lk [Lj ET]]]]. apply (m_roots _ _ _ M) in H1, H2.
    destruct (fvert_nth faces r k QF H1 Lk) as [fc [Ef [_ Ek]]]. destruct (fvert_nth faces r' j QF H2 Lj) as [fc' [Ef' [_ Ej]]].
    exists fc, fc'. eexists. split; [exact Ef|]. split; [exact Ef'|]. split; [exact Ek|]. rewrite Ej. unfold opposite. cbn [fst snd].
    destruct (side_good I [r] k (proj2 (m_roots _ _ _ M r) H1) Lk) as [L1 [_ [g1 _]]]. destruct (side_good I [r'] j (proj2 (m_roots _ _ _ M r') H2) Lj) as [L2 [_ [g2 _]]].
    destruct (i_t _ (s_h m I) _ _ L1 ET) as [_ [_ [_ [_ V]]]]. destruct (V (u_r _ (m_u _ _ _ M) _ L1)) as [V1 V2].
    rewrite g1 in V1. rewrite g2 in V2.
    destruct (m_base _ _ _ M r k H1 Lk) as [b1 b2]. destruct (m_base _ _ _ M r' j H2 Lj) as [b3 b4].
    destruct (m_base _ _ _ M r ((k + 1) mod 4) H1 ltac:(auto)) as [b5 b6]. destruct (m_base _ _ _ M r' ((j + 1) mod 4) H2 ltac:(auto)) as [b7 b8].
    congruence.
  - intros [fc [fc' [e [Ef [Ef' [Ek Ej]]]]]].
    assert (Lr : r < length faces) by (apply nth_error_Some; congruence). assert (Lr' : r' < length faces) by (apply nth_error_Some; congruence).
    destruct (qf_nth faces r QF Lr) as [_ L4]. destruct (qf_nth faces r' QF Lr') as [_ L4'].
    rewrite (nth_error_nth _ _ [] Ef) in L4. rewrite (nth_error_nth _ _ [] Ef') in L4'.
    assert (Lk : k < 4) by (rewrite <- L4, <- polygon_edges_length; apply nth_error_Some; congruence).
    assert (Lj : j < 4) by (rewrite <- L4', <- polygon_edges_length; apply nth_error_Some; congruence).
    destruct (fvert_nth faces r k QF Lr Lk) as [x [Ex [_ Ek']]]. destruct (fvert_nth faces r' j QF Lr' Lj) as [y [Ey [_ Ej']]].
    rewrite Ef in Ex. injection Ex as <-. rewrite Ef' in Ey. injection Ey as <-.
    pose proof (proj2 (m_roots _ _ _ M r) Lr) as H1. pose proof (proj2 (m_roots _ _ _ M r') Lr') as H2.
    split; auto. split; auto. split; auto. split; auto.
    destruct (side_good I [r] k H1 Lk) as [L1 [_ [g1 _]]]. destruct (side_good I [r'] j H2 Lj) as [L2 [_ [g2 _]]].
    destruct (m_base _ _ _ M r k Lr Lk) as [b1 b2]. destruct (m_base _ _ _ M r' j Lr' Lj) as [b3 b4].
    destruct (m_base _ _ _ M r ((k + 1) mod 4) Lr ltac:(auto)) as [b5 b6]. destruct (m_base _ _ _ M r' ((j + 1) mod 4) Lr' ltac:(auto)) as [b7 b8].
    assert (Q : (fvert faces r' j, fvert faces r' ((j + 1) mod 4)) = (fvert faces r ((k + 1) mod 4), fvert faces r k)).
    { assert (Ee : e = (fvert faces r k, fvert faces r ((k + 1) mod 4))) by congruence. rewrite Ee in Ej. unfold opposite in Ej. cbn [fst snd] in Ej. congruence. }
    assert (Q1 : fvert faces r' j = fvert faces r ((k + 1) mod 4)) by exact (f_equal fst Q).
    assert (Q2 : fvert faces r' ((j + 1) mod 4) = fvert faces r k) by exact (f_equal snd Q).
    apply (u_3 _ (m_u _ _ _ M)); auto; congruence.
Qed.
Lemma nb_faces pts faces m : quad_faces faces -> minv pts faces m ->
  forall p k q j, nb (radj m) p k q j <-> nb (face_adj faces) p k q j.
Proof. intros QF M p k q j. split; apply nb_adj; intros r x r' y; apply (adj_faces pts faces m QF M). Qed.

(** sides *)
Lemma is_side_iff m p k h : sinv m -> (is_side m p k h <-> here m p /\ k < 4 /\ h = side m p k).
Proof.
  intros I. split.
  - intros [c [Fp E]]. pose proof (data_sides I p c Fp) as D. assert (Hp : here m p) by (apply here_fget; eauto).
    split; auto. rewrite D in E. destruct k as [|[|[|[|k]]]]; simpl in E; try (destruct k; discriminate); injection E as <-; split; auto; lia.
  - intros [Hp [Lk ->]]. apply here_fget in Hp. destruct Hp as [c Fp]. exists c. split; auto. rewrite (data_sides I p c Fp).
    destruct k as [|[|[|[|k]]]]; [reflexivity..|lia].
Qed.

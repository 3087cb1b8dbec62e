(** * The surface of a mesh (for C48-C50): the lemmas of SurfFacts for the faces of a mesh *)
From Coq Require Import List Arith Bool Lia QArith Lqa.
From Verif Require Import Tree Forest Geom SpecGeom Dcel SpecDcel Quad SpecForest TreeFacts ForestFacts QuadFacts QuadSplit QuadInv SpecQuad QuadNb
  DcelFacts QuadInit QuadUniq QuadStart QuadCoords QuadHist Fem Dof SpecDof Dof2 SpecDof2 SurfFacts Node2Facts VertNb.
Import ListNotations.
Open Scope nat_scope.

Section mesh.
Context (pts : list pt) (faces : list (list nat)) (m : mesh2).
Hypothesis QF : quad_faces faces.
Hypothesis M : minv pts faces m.
Let I := m_s _ _ _ M.
Local Notation adj := (face_adj faces).
Lemma adj_len r k r' j : adj r k r' j -> r < length faces /\ r' < length faces.
Proof. intros [fc [fc' [e [E1 [E2 _]]]]]. split; apply nth_error_Some; congruence. Qed.
Lemma adj_here r k r' j : adj r k r' j -> here m [r].
Proof. intro A. apply (m_roots _ _ _ M). apply (adj_len _ _ _ _ A). Qed.
Lemma adj_vert r k r' j : adj r k r' j -> fvert faces r k = fvert faces r' ((j + 1) mod 4) /\ fvert faces r ((k + 1) mod 4) = fvert faces r' j.
Proof.
  intro A. destruct (adj_len _ _ _ _ A) as [L L']. destruct (adj_lt pts faces m QF M _ _ _ _ A) as [Lk Lj].
  destruct A as [fc [fc' [e [E1 [E2 [E3 E4]]]]]].
  destruct (fvert_nth faces r k QF L Lk) as [x [X1 [_ X2]]]. destruct (fvert_nth faces r' j QF L' Lj) as [y [Y1 [_ Y2]]].
  assert (Ee : e = (fvert faces r k, fvert faces r ((k + 1) mod 4))) by congruence.
  assert (Eo : opposite e = (fvert faces r' j, fvert faces r' ((j + 1) mod 4))) by congruence.
  rewrite Ee in Eo. unfold opposite in Eo. cbn [fst snd] in Eo.
  split; [exact (f_equal snd Eo)|exact (f_equal fst Eo)].
Qed.
Lemma vert_inj' r c d : r < length faces -> c < 4 -> d < 4 -> fvert faces r c = fvert faces r d -> c = d.
Proof.
  intros L Lc Ld E. destruct (qf_nth faces r QF L) as [ND L4]. unfold fvert in E. apply (proj1 (NoDup_nth _ 0) ND); lia.
Qed.
Lemma vert_inj r k r' j : adj r k r' j -> forall c d, c < 4 -> d < 4 -> fvert faces r c = fvert faces r d -> c = d.
Proof. intro A. destruct (adj_len _ _ _ _ A) as [L _]. intros c d Lc Ld. apply (vert_inj' r c d L Lc Ld). Qed.
Lemma adj_fun r k r' j r'' j' : adj r k r' j -> adj r k r'' j' -> r' = r'' /\ j = j'.
Proof.
  intros A A'. destruct (adj_lt pts faces m QF M _ _ _ _ A) as [Lk Lj]. destruct (adj_lt pts faces m QF M _ _ _ _ A') as [_ Lj'].
  pose proof (adj_here _ _ _ _ A) as H. pose proof (adj_here _ _ _ _ (adj_sym pts faces m QF M _ _ _ _ A)) as H1.
  pose proof (adj_here _ _ _ _ (adj_sym pts faces m QF M _ _ _ _ A')) as H2.
  pose proof (proj2 (twin_iff pts faces m QF M [r] k [r'] j H H1 Lk Lj) (nb_root _ _ _ _ _ A)) as E1.
  pose proof (proj2 (twin_iff pts faces m QF M [r] k [r''] j' H H2 Lk Lj') (nb_root _ _ _ _ _ A')) as E2.
  assert (E : side m [r'] j = side m [r''] j') by congruence. apply (QuadInv.side_inj I) in E; auto. destruct E as [E ->].
  split; congruence.
Qed.
Lemma adj_irr r k j : ~ adj r k r j.
Proof.
  intro A. destruct (adj_lt pts faces m QF M _ _ _ _ A) as [Lk Lj]. destruct (adj_vert _ _ _ _ A) as [V1 V2].
  apply (vert_inj r k r j A) in V1; auto. apply (vert_inj r k r j A) in V2; auto. subst k.
  destruct j as [|[|[|[|j]]]]; try discriminate V2. lia.
Qed.
Lemma here_fam p i : p <> [] -> here m (p ++ [i]) -> here m p /\ i < 4 /\ forall j, j < 4 -> here m (p ++ [j]).
Proof. intros N H. split; [eapply here_parent; eauto|]. apply (s_fam _ I p i N H). Qed.
Lemma here_ne p : here m p -> p <> []. Proof. apply path_nonempty. Qed.
Definition surf_level := same_level adj (adj_lt pts faces m QF M) (adj_sym pts faces m QF M) adj_fun (here m) here_fam here_ne adj_here.
Definition surf_cell := one_cell adj (adj_lt pts faces m QF M) (adj_sym pts faces m QF M) adj_fun adj_irr (fvert faces) vert_inj adj_vert (here m) adj_here.
Lemma here_prefix p r : p <> [] -> here m (p ++ r) -> here m p.
Proof.
  intro N. induction r as [|i r IH] using rev_ind; [rewrite app_nil_r; auto|]. rewrite app_assoc. intro H. apply IH. eapply here_parent; [|exact H].
  destruct p; [congruence|discriminate].
Qed.
End mesh.

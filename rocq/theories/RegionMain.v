(** * The boundary of a refined mesh: from the invariant to the vocabulary (for C67) *)
From Coq Require Import List Arith Bool Lia Permutation QArith.
From Verif Require Import Tree Forest Geom SpecGeom Dcel SpecDcel DcelFacts Segments SegFacts GroupExt Quad SpecForest TreeFacts ForestFacts QuadFacts QuadSplit QuadInv SpecQuad QuadInit QuadStart QuadHist Solver NodalFacts Prop_Dcel Prop_Segments Prop_QuadMesh Region SpecRegion RegionFacts.
Import ListNotations.
Open Scope nat_scope.

Lemma piece_iff {m} (I : sinv m) sf r k h : submesh_rooted (cells m) sf -> k < 4 -> here m [r] ->
  (piece_of m sf r k h <-> exists q, h = side m (r :: q) k /\ @reach m sf r k q /\ ~ @opened m sf (r :: q)).
Proof.
  intros Rt Lk Hr. unfold opened, cell_has_children.
  assert (PR : forall p, here m p -> present (cells m) p = true).
  { intros p Hp. apply here_fget in Hp. destruct Hp as [n E]. unfold present. rewrite E. auto. }
  assert (FO : forall p n, fget (cells m) p = Some n -> (fl_ok sf n <-> match sf with None => True | Some g => marked_at (cells m) p g = true end)).
  { intros p n E. destruct sf as [g|]; simpl; [|tauto]. unfold marked_at. rewrite E. tauto. }
  assert (CO : forall p i, p <> [] -> here m (p ++ [i]) -> match sf with None => True | Some g => marked_at (cells m) (p ++ [i]) g = true end -> @opened m sf p).
  { intros p i Np Hi Mi. apply here_fget in Hi. destruct Hi as [kd Ek]. pose proof Ek as Ek'. rewrite fget_snoc in Ek by auto. unfold opened, cell_has_children.
    destruct (fget (cells m) p) as [n|] eqn:E; [|discriminate]. apply has_children_spec. exists i, kd. split; [|apply (FO _ _ Ek'); auto].
    destruct (nth_error (n_slots n) i) as [[o|]|]; congruence. }
  split.
  - intros [q [F [[n [E [Fl Nk]]] Hs]]]. exists q. pose proof Hs as Hs'. apply is_side_iff in Hs; auto. destruct Hs as [Hq [_ ->]]. split; auto. split; [split; auto|].
    + intros q1 i q2 ->.
      assert (PRE : forall w, here m (((r :: q1) ++ [i]) ++ w) -> here m ((r :: q1) ++ [i])).
      { induction w as [|x w IH] using rev_ind; [rewrite app_nil_r; auto|]. rewrite app_assoc. intros H. apply IH. eapply here_parent; [|exact H]. destruct w; discriminate. }
      apply (CO (r :: q1) i); [discriminate| |].
      { apply (PRE q2). rewrite <- app_assoc. exact Hq. }
      destruct sf as [g|]; auto. destruct Rt as [_ [R2 _]]. destruct q2 as [|j q2].
      * apply (FO _ _ E). exact Fl.
      * apply (R2 ((r :: q1) ++ [i]) j q2); [discriminate|]. rewrite <- app_assoc. apply (FO _ _ E). exact Fl.
    + rewrite E. intros HC. apply has_children_spec in HC. destruct HC as [i [kd [Ei Fk]]]. eapply Nk; eauto.
  - intros [q [-> [Rq Op]]]. exists q. split; [apply Rq|]. pose proof (reach_here I sf r k q Lk Hr Rq) as Hq.
    split; [|apply is_side_iff; auto]. apply here_fget in Hq. destruct Hq as [n E]. exists n. split; auto. rewrite E in Op. split.
    + apply (FO _ _ E). destruct sf as [g|]; auto. destruct Rt as [R1 [_ R3]]. clear E Op n. revert Rq. induction q as [|i q IH] using rev_ind.
      * intros _. apply R1. apply PR; auto.
      * intros [F O]. pose proof (O q i [] eq_refl) as Oq. unfold opened, cell_has_children in Oq.
        destruct (fget (cells m) (r :: q)) as [n|] eqn:E; [|discriminate]. apply has_children_spec in Oq. destruct Oq as [j [kd [Ej Fk]]].
        change (marked_at (cells m) ((r :: q) ++ [i]) g = true). apply (R3 (r :: q) j i); [discriminate| |].
        { unfold marked_at. rewrite fget_snoc by discriminate. rewrite E, Ej. exact Fk. }
        { apply PR. apply (proj2 (opened_kids I (Some g) (r :: q) i (O q i [] eq_refl) ltac:(apply (touch_lt k); auto; apply Forall_app in F; destruct F as [_ F]; inversion F; auto))). }
    + intros i kd Ei Fk. apply Op. apply has_children_spec. exists i, kd. auto.
Qed.

Section HIST.
Variables (pts : list pt) (faces : list (list nat)) (m0 m : mesh2).
Hypothesis H : mesh_history pts faces m0 m.
Let n := nh (hp m0).

Lemma start_nh : nh (hp m0) = 4 * length faces.
Proof.
  destruct H as [PM [QF [[d [Ed Em]] _]]]. pose proof (start_inv (length pts) faces d pts PM QF eq_refl Ed) as S. rewrite Em in S.
  destruct S as [_ [_ [_ [_ [_ [_ [_ [S _]]]]]]]]. exact S.
Qed.
Lemma hist0 : mesh_history pts faces m0 m0.
Proof. destruct H as [PM [QF [X _]]]. repeat split; auto; try apply PM. constructor. Qed.

Lemma root_side_twin m' r k h : mesh_history pts faces m0 m' -> is_side m' [r] k h ->
  (twin (he (hp m') h) = None <-> forall r' j, ~ face_adj faces r k r' j).
Proof.
  intros H' Hs. destruct (C28_twin _ _ _ _ _ _ _ H' Hs) as [T1 T2]. pose proof (history_minv _ _ _ _ H') as M. split.
  - intros E r' j A. destruct A as [fc [fc' [e [E1 [E2 [E3 E4]]]]]].
    assert (Lr : r' < length faces) by (apply nth_error_Some; congruence). apply (m_roots _ _ _ M) in Lr. apply here_fget in Lr. destruct Lr as [c Ec].
    destruct (T2 [r'] j c) as [t [_ Et]]; [constructor; exists fc, fc', e; auto|auto|congruence].
  - intros N. destruct (twin (he (hp m') h)) as [t|] eqn:E; auto. exfalso. destruct (T1 t eq_refl) as [q [j [_ [Nb _]]]].
    inversion Nb as [a b c d A E1 E2 E3| p a q0 b x E1 E2|p a q0 b x E1 E2|p i Np Li E1|p i Np Li E1]; subst.
    + eapply N; eauto.
    + destruct p as [|? [|]]; try discriminate. inversion x; destruct p; discriminate.
    + destruct p as [|? [|]]; try discriminate. inversion x; destruct p; discriminate.
    + destruct p as [|? [|]]; try discriminate. congruence.
    + destruct p as [|? [|]]; try discriminate. congruence.
Qed.
Lemma root_side m' h : mesh_history pts faces m0 m' -> h < n -> exists r k, is_side m' [r] k h /\ r < length faces /\ k < 4 /\ h = 4 * r + k.
Proof.
  intros H' L. unfold n in L. rewrite start_nh in L. pose proof (history_minv _ _ _ _ H') as M. exists (h / 4), (h mod 4).
  assert (Lr : h / 4 < length faces) by (apply Nat.div_lt_upper_bound; lia). assert (Lk : h mod 4 < 4) by auto.
  assert (E : h = 4 * (h / 4) + h mod 4) by (apply Nat.div_mod; lia).
  split; [|auto]. apply is_side_iff; [apply M|]. split; [apply (m_roots _ _ _ M); auto|]. split; auto.
  destruct (m_base _ _ _ M _ _ Lr Lk) as [E1 _]. rewrite E1. exact E.
Qed.
Lemma root_side_inv m' r k h : mesh_history pts faces m0 m' -> is_side m' [r] k h -> h < n /\ r < length faces /\ k < 4 /\ h = 4 * r + k.
Proof.
  intros H' Hs. pose proof (history_minv _ _ _ _ H') as M. apply is_side_iff in Hs; [|apply M]. destruct Hs as [Hr [Lk ->]].
  apply (m_roots _ _ _ M) in Hr. destruct (m_base _ _ _ M _ _ Hr Lk) as [E1 _]. rewrite E1. unfold n. rewrite start_nh. split; [lia|auto].
Qed.
Lemma root_boundary_in m' h : mesh_history pts faces m0 m' -> (In h (root_boundary m' n) <-> exists r k, is_side m' [r] k h /\ outer_side faces r k).
Proof.
  intros H'. unfold root_boundary. rewrite filter_In, in_seq. split.
  - intros [L T]. destruct (root_side m' h H' ltac:(lia)) as [r [k [Hs [Lr [Lk E]]]]]. exists r, k. split; auto. split.
    + destruct H' as [_ [QF _]]. destruct (nth_error faces r) as [fc|] eqn:Ef; [|apply nth_error_None in Ef; lia]. exists fc. split; auto.
      pose proof (qf_nth faces r QF Lr) as [_ L4]. rewrite (nth_error_nth _ _ [] Ef) in L4. lia.
    + apply (root_side_twin m' r k h H' Hs). destruct (twin (he (hp m') h)); [discriminate|auto].
  - intros [r [k [Hs O]]]. destruct (root_side_inv _ _ _ _ H' Hs) as [L _]. split; [lia|]. rewrite (proj2 (root_side_twin m' r k h H' Hs)); auto. apply O.
Qed.
Lemma root_boundary_same : root_boundary m n = root_boundary m0 n.
Proof.
  unfold root_boundary. apply filter_ext_in. intros h Ih. apply in_seq in Ih.
  destruct (root_side m h H ltac:(lia)) as [r [k [Hs [Lr [Lk E]]]]]. destruct (root_side m0 h hist0 ltac:(lia)) as [r' [k' [Hs' [Lr' [Lk' E']]]]].
  assert (r' = r /\ k' = k) as [-> ->] by lia.
  pose proof (root_side_twin _ _ _ _ H Hs) as T1. pose proof (root_side_twin _ _ _ _ hist0 Hs') as T2.
  destruct (twin (he (hp m) h)), (twin (he (hp m0) h)); auto; exfalso.
  - assert (@Some nat n0 = None) by (apply T1, T2; auto). discriminate.
  - assert (@Some nat n0 = None) by (apply T2, T1; auto). discriminate.
Qed.
Lemma root_ends h : h < n -> hbase (he (hp m) h) = hbase (he (hp m0) h) /\ hhead (he (hp m) h) = hhead (he (hp m0) h).
Proof.
  intros L. pose proof (history_minv _ _ _ _ H) as M. pose proof (history_minv _ _ _ _ hist0) as M0.
  destruct (root_side m h H L) as [r [k [Hs [Lr [Lk E]]]]].
  assert (BB : forall k', k' < 4 -> hbase (he (hp m) (4 * r + k')) = hbase (he (hp m0) (4 * r + k'))).
  { intros k' Lk'. destruct (m_base _ _ _ M r k' Lr Lk') as [_ E1]. destruct (m_base _ _ _ M0 r k' Lr Lk') as [_ E2]. congruence. }
  assert (HH : forall m', mesh_history pts faces m0 m' -> hhead (he (hp m') h) = hbase (he (hp m') (4 * r + (k + 1) mod 4))).
  { intros m' H'. pose proof (history_minv _ _ _ _ H') as M'. assert (Hr : here m' [r]) by (apply (m_roots _ _ _ M'); auto).
    destruct (side_good (m_s _ _ _ M') [r] k Hr Lk) as [_ [_ [G _]]]. destruct (m_base _ _ _ M' r k Lr Lk) as [E1 _].
    destruct (m_base _ _ _ M' r ((k + 1) mod 4) Lr ltac:(auto)) as [E2 _]. rewrite E1, E2 in G. rewrite E. exact G. }
  split; [rewrite E; auto|]. rewrite (HH m H), (HH m0 hist0). auto.
Qed.

Lemma coarse_ok hl vl : exists coarse, get_boundary_segments (mkR m0 n hl vl) None None = Ok coarse /\
  group (fun h => hbase (he (hp m) h)) (fun h => hhead (he (hp m) h)) VMesh (root_boundary m n) = Ok coarse /\
  NoDup (concat coarse) /\ incl (concat coarse) (root_boundary m0 n) /\
  (forall s, In s coarse -> s <> [] /\ joined_hes (hp m) s /\ joined_hes (hp m0) s).
Proof.
  assert (RB : forall h, In h (root_boundary m0 n) -> h < n). { intros h Ih. apply filter_In in Ih. destruct Ih as [Ih _]. apply in_seq in Ih. lia. }
  assert (ND : NoDup (root_boundary m0 n)) by (apply NoDup_filter, seq_NoDup).
  pose proof (group_ext (fun h => hbase (he (hp m) h)) (fun h => hhead (he (hp m) h)) (fun h => hbase (he (hp m0) h)) (fun h => hhead (he (hp m0) h)) VMesh
    (root_boundary m0 n) (fun h Ih => proj1 (root_ends h (RB h Ih))) (fun h Ih => proj2 (root_ends h (RB h Ih)))) as GE.
  rewrite <- root_boundary_same in GE at 1.
  destruct (C27_segments_sound_partial (fun h => hbase (he (hp m0) h)) (fun h => hhead (he (hp m0) h)) (root_boundary m0 n) ND) as [segs [E [J [N Inc]]]].
  exists segs. rewrite GE. split; [|split; [exact E|]; split; [exact N|]; split; [exact Inc|]].
  - unfold get_boundary_segments. cbn [rm n_root]. rewrite E. cbn [bind].
    pose proof (history_minv _ _ _ _ hist0) as M0. pose proof (m_s _ _ _ M0) as I0.
    assert (LF : forall r i q, ~ here m0 (r :: i :: q)).
    { destruct H as [PM [QF [[d [Ed Em]] _]]]. pose proof (start_inv (length pts) faces d pts PM QF eq_refl Ed) as S. rewrite Em in S.
      destruct S as [_ [_ [_ [_ [S _]]]]]. exact S. }
    assert (EX : forall fuel todo seg, (forall x, In x todo -> x < n) -> length todo <= fuel -> expand fuel m0 None todo seg = Ok seg).
    { induction fuel as [|fu IH]; intros todo seg Ht Lf; (destruct todo as [|h t]; [destruct fu || idtac; reflexivity|]); [simpl in Lf; lia|].
      cbn [expand]. destruct (root_side m0 h hist0 (Ht h (or_introl eq_refl))) as [r [k [Hs [Lr [Lk _]]]]]. apply is_side_iff in Hs; auto.
      destruct Hs as [Hr [_ Eh]]. destruct (side_good I0 [r] k Hr Lk) as [_ [Ch _]]. rewrite <- Eh in Ch. rewrite Ch.
      destruct (cell_has_children m0 [r] None) eqn:Op.
      - exfalso. destruct (opened_kids I0 None [r] 0 Op ltac:(lia)) as [_ Hk]. eapply LF; exact Hk.
      - apply IH; [intros x Ix; apply Ht; right; auto|simpl in Lf; lia]. }
    rewrite (mr_ok _ (fun s => s)); [rewrite map_id; auto|]. intros s Is. rewrite EX; auto.
    + intros x Ix. apply RB, Inc. apply in_concat. eauto.
    + assert (ND' : NoDup s). { clear - N Is. induction segs as [|a l IH]; [destruct Is|]. simpl in N. apply SegFacts.NoDup_app_inv in N. destruct N as [N1 [N2 _]]. destruct Is as [->|Is]; auto. }
      replace (nh (hp m0)) with (length (seq 0 n)) by (unfold n; apply seq_length). apply NoDup_incl_length; auto.
      intros x Ix. apply in_seq. assert (x < n) by (apply RB, Inc, in_concat; eauto). lia.
  - intros s Is. destruct (J s Is) as [Ne Jn]. split; auto. split; auto. unfold joined in Jn. unfold joined_hes.
    assert (SI : forall x, In x s -> x < n) by (intros x Ix; apply RB, Inc, in_concat; eauto). clear Is Ne. revert Jn SI.
    induction s as [|a s IH]; auto. intros [J1 J2] SI. split; [|apply IH; auto; intros; apply SI; right; auto].
    destruct s as [|b s]; auto. destruct (root_ends a) as [_ E1]; [apply SI; left; auto|]. destruct (root_ends b) as [E2 _]; [apply SI; right; left; auto|]. congruence.
Qed.

Lemma refined_ok sf hl vl hl' vl' : submesh_rooted (cells m) sf ->
  exists coarse segs, get_boundary_segments (mkR m0 n hl vl) None None = Ok coarse /\
    get_boundary_segments (mkR m n hl' vl') sf None = Ok segs /\
    NoDup (concat coarse) /\ incl (concat coarse) (root_boundary m0 n) /\
    (forall s, In s coarse -> s <> [] /\ joined_hes (hp m0) s) /\
    Forall2 (cut_into m0 m sf) coarse segs /\ (forall h, In h (concat segs) -> twin (he (hp m) h) = None).
Proof.
  intros Rt. destruct (coarse_ok hl vl) as [coarse [E1 [E2 [N [Inc J]]]]]. exists coarse.
  pose proof (history_minv _ _ _ _ H) as M. pose proof (m_s _ _ _ M) as I.
  assert (RB : forall h, In h (root_boundary m0 n) -> h < n). { intros h Ih. apply filter_In in Ih. destruct Ih as [Ih _]. apply in_seq in Ih. lia. }
  assert (EACH : forall c, In c coarse -> exists s, expand (nh (hp m)) m sf c c = Ok s /\ cut_into m0 m sf c s /\ forall h, In h s -> twin (he (hp m) h) = None).
  { intros c Ic. assert (Cb : forall x, In x c -> In x (root_boundary m0 n)) by (intros x Ix; apply Inc, in_concat; eauto).
    assert (Nc : NoDup c). { clear - N Ic. induction coarse as [|a l IH]; [destruct Ic|]. simpl in N. apply SegFacts.NoDup_app_inv in N. destruct N as [N1 [N2 _]]. destruct Ic as [->|Ic]; auto. }
    destruct (expand_result I sf c Nc) as [s [Es [Ns [Ne [Mem [Ch [B1 [H1 Tw]]]]]]]].
    { intros x Ix. destruct (root_side m x H (RB x (Cb x Ix))) as [r [k [Hs [Lr [Lk E]]]]]. apply is_side_iff in Hs; auto. exists r, k. tauto. }
    exists s. split; auto. destruct (J c Ic) as [Nec [J1 J0]]. split.
    - split; [auto|]. split; [auto|]. split; [apply Ch; exact J1|].
      assert (Lh : hd 0 c < n) by (apply RB, Cb; destruct c; [congruence|left; auto]).
      assert (Ll : last c 0 < n). { apply RB, Cb. destruct (exists_last Nec) as [u [z ->]]. rewrite last_last. apply in_or_app; right; left; auto. }
      split; [rewrite B1; apply root_ends; auto|]. split; [rewrite H1; apply root_ends; auto|].
      intros h. rewrite Mem. split.
      + intros [r [k [q [S0 [Lk [Hr [Eh [Rq Op]]]]]]]].
        assert (Lr : r < length faces) by (apply (m_roots _ _ _ M); auto). destruct (m_base _ _ _ M r k Lr Lk) as [Eg _].
        exists r, k, (side m [r] k). split; auto. split.
        * pose proof (history_minv _ _ _ _ hist0) as M0. apply is_side_iff; [apply M0|]. split; [apply (m_roots _ _ _ M0); auto|]. split; auto.
          destruct (m_base _ _ _ M0 r k Lr Lk) as [Eg0 _]. congruence.
        * apply (piece_iff I); auto. exists q. auto.
      + intros [r [k [g [Ig [Hg Pc]]]]]. destruct (root_side_inv _ _ _ _ hist0 Hg) as [_ [Lr [Lk Eg]]].
        assert (Hr : here m [r]) by (apply (m_roots _ _ _ M); auto). destruct (m_base _ _ _ M r k Lr Lk) as [Es' _].
        apply (piece_iff I) in Pc; auto. destruct Pc as [q [Eh [Rq Op]]]. exists r, k, q. rewrite Es', <- Eg. split; [exact Ig|]. split; [exact Lk|]. split; [exact Hr|]. split; [exact Eh|]. split; [exact Rq|exact Op].
    - apply Tw. intros x Ix. pose proof (Cb x Ix) as Ib. rewrite <- root_boundary_same in Ib. apply filter_In in Ib. destruct Ib as [_ Ib].
      change (twin (he (hp m) x) = None). destruct (twin (he (hp m) x)); [discriminate|auto]. }
  assert (F : exists segs, map_res (fun seg => bind (expand (nh (hp m)) m sf seg seg) (fun s => Ok s)) coarse = Ok segs /\
    Forall2 (cut_into m0 m sf) coarse segs /\ (forall h, In h (concat segs) -> twin (he (hp m) h) = None)).
  { clear - EACH. induction coarse as [|c l IH]; [exists []; split; [reflexivity|]; split; [constructor|intros h []]|].
    destruct (EACH c (or_introl eq_refl)) as [s [Es [Cs Ts]]]. destruct IH as [segs [El [Fl Tl]]]; [intros c' Ic'; apply EACH; right; auto|].
    exists (s :: segs). cbn [map_res]. rewrite Es. cbn [bind]. rewrite El. cbn [bind]. split; auto. split; [constructor; auto|].
    intros h Ih. simpl in Ih. apply in_app_or in Ih. destruct Ih; auto. }
  destruct F as [segs [Ef [Ff Tf]]]. exists segs. split; auto. split; [|split; [auto|split; [auto|split; [intros s Is; split; apply (J s Is)|split; auto]]]].
  unfold get_boundary_segments. cbn [rm n_root]. rewrite E2. cbn [bind]. exact Ef.
Qed.

(** the root half-edges are those of the DCEL *)
Lemma coarse_dcel d hl vl : determine2 (length pts) faces = Ok d ->
  get_boundary_segments (mkR m0 n hl vl) None None = coarse_boundary_segments d /\ root_boundary m0 n = boundary_hes d /\
  (forall h, h < n -> hbase (he (hp m0) h) = he_base d h /\ hhead (he (hp m0) h) = he_head d h).
Proof.
  intros Ed. pose proof H as [PM [QF _]]. pose proof (history_minv _ _ _ _ hist0) as M0.
  assert (CN : forall r k, r < length faces -> k < 4 -> conn faces (4 * r + k) = (fvert faces r k, fvert faces r ((k + 1) mod 4))).
  { intros r k Lr Lk. unfold conn. replace ((4 * r + k) / 4) with r by (rewrite (Nat.mul_comm 4 r), Nat.div_add_l by lia; rewrite Nat.div_small by lia; lia).
    replace ((4 * r + k) mod 4) with k; auto. rewrite Nat.add_comm, Nat.mul_comm, Nat.mod_add by lia. symmetry. apply Nat.mod_small; auto. }
  assert (BH : forall h, h < n -> hbase (he (hp m0) h) = he_base d h /\ hhead (he (hp m0) h) = he_head d h).
  { intros h L. destruct (root_side m0 h hist0 L) as [r [k [Hs [Lr [Lk E]]]]]. assert (L4 : h < 4 * length faces) by lia.
    destruct (conn_nth _ _ _ _ QF Ed L4) as [x [Ex Ec]]. unfold he_base, he_head. rewrite Ex, Ec.
    rewrite E, (CN r k Lr Lk). cbn [fst snd]. destruct (m_base _ _ _ M0 r k Lr Lk) as [E1 E2]. split; [exact E2|].
    assert (Hr : here m0 [r]) by (apply (m_roots _ _ _ M0); auto).
    destruct (side_good (m_s _ _ _ M0) [r] k Hr Lk) as [_ [_ [G _]]]. destruct (m_base _ _ _ M0 r ((k + 1) mod 4) Lr ltac:(auto)) as [E3 E4].
    rewrite E1, E3 in G. rewrite G. exact E4. }
  assert (LD : length (d_hes d) = n).
  { unfold n. rewrite start_nh. destruct (determine2_inv _ _ _ Ed) as [_ [_ [Eh _]]]. rewrite Eh.
    assert (LN : length (mesh_edges faces) = 4 * length faces).
    { rewrite mesh_edges_length. clear - QF. induction QF as [|x r [_ L] QF IH]; [reflexivity|]. cbn [map length].
      change (list_sum (length x :: map (length (A:=nat)) r)) with (length x + list_sum (map (length (A:=nat)) r)). rewrite L, IH. lia. }
    rewrite <- LN. apply all_hes_length. }
  assert (RE : root_boundary m0 n = boundary_hes d).
  { unfold root_boundary, boundary_hes. rewrite LD. apply filter_ext_in. intros h Ih. apply in_seq in Ih.
    destruct (root_side m0 h hist0 ltac:(lia)) as [r [k [Hs [Lr [Lk E]]]]].
    pose proof (root_side_twin _ _ _ _ hist0 Hs) as T.
    assert (IB : In h (boundary_hes d) <-> forall r' j, ~ face_adj faces r k r' j).
    { rewrite (in_boundary_hes _ _ _ _ PM Ed). destruct (conn_nth _ _ _ h QF Ed ltac:(lia)) as [x [Ex Ec]].
      assert (Ec' : h_conn x = (fvert faces r k, fvert faces r ((k + 1) mod 4))) by (rewrite Ec, E; auto).
      destruct (fvert_nth faces r k QF Lr Lk) as [fc [Efc [_ Ek]]].
      split.
      - intros [x' [Ex' NI]] r' j [fc1 [fc' [e [A1 [A2 [A3 A4]]]]]]. assert (x' = x) by congruence. subst x'. apply NI.
        assert (fc1 = fc) by congruence. subst fc1. rewrite Ec'. assert (e = (fvert faces r k, fvert faces r ((k + 1) mod 4))) by congruence. subst e.
        unfold mesh_edges. apply in_flat_map. exists fc'. split; [eapply nth_error_In; eauto|eapply nth_error_In; eauto].
      - intros NA. exists x. split; auto. rewrite Ec'. intros In1. unfold mesh_edges in In1. apply in_flat_map in In1. destruct In1 as [fc' [If Ie]].
        apply In_nth_error in If. destruct If as [r' Er']. apply In_nth_error in Ie. destruct Ie as [j Ej]. apply (NA r' j). exists fc, fc'. eexists. eauto. }
    unfold boundary_hes in IB. rewrite LD, filter_In, in_seq in IB.
    assert (IB' : (match nth_error (d_twin d) h with Some None => true | _ => false end = true) <-> twin (he (hp m0) h) = None) by (rewrite T, <- IB; split; [intros; split; [lia|auto]|tauto]).
    clear IB T. destruct (twin (he (hp m0) h)); destruct (nth_error (d_twin d) h) as [[|]|]; auto; exfalso;
      try (assert (true = true -> False) by (intros ZZ; apply IB' in ZZ; discriminate); auto);
      try (destruct IB' as [_ IB']; specialize (IB' eq_refl); discriminate). }
  split; [|auto].
  destruct (coarse_ok hl vl) as [coarse [E1 _]]. rewrite E1. unfold coarse_boundary_segments. rewrite <- RE.
  rewrite <- (group_ext (fun h => hbase (he (hp m0) h)) (fun h => hhead (he (hp m0) h)) (he_base d) (he_head d) VMesh (root_boundary m0 n)).
  - destruct (coarse_ok hl vl) as [c' [E1' [E2 _]]]. assert (c' = coarse) by congruence. subst c'. rewrite <- E2. symmetry.
    rewrite root_boundary_same. apply group_ext; intros h Ih; apply filter_In in Ih; destruct Ih as [Ih _]; apply in_seq in Ih; symmetry; apply root_ends; lia.
  - intros h Ih; apply filter_In in Ih; destruct Ih as [Ih _]; apply in_seq in Ih; apply BH; lia.
  - intros h Ih; apply filter_In in Ih; destruct Ih as [Ih _]; apply in_seq in Ih; apply BH; lia.
Qed.
End HIST.

(** * C69: tearing the mesh along a region of half-edges *)
From Coq Require Import List Arith Bool Lia Permutation QArith.
From Verif Require Import Tree Forest SpecForest TreeFacts ForestFacts Geom SpecGeom Dcel SpecDcel DcelFacts Segments Quad SpecQuad QuadFacts QuadInv QuadHist Solver Prop_Dcel Prop_QuadMesh Region SpecRegion RegionMain RegionMark Prop_Region Prop_RegionMark.
Import ListNotations.
Open Scope nat_scope.

Lemma tear_ok m h t : twin (he (hp m) h) = Some t -> t <> h -> exists m', tear m h = Ok m' /\ cells m' = cells m /\
  nh (hp m') = nh (hp m) /\ nv (hp m') = 2 + nv (hp m) /\
  (forall v, v < nv (hp m) -> vx (hp m') v = vx (hp m) v) /\
  vx (hp m') (nv (hp m)) = vx (hp m) (hbase (he (hp m) h)) /\ vx (hp m') (1 + nv (hp m)) = vx (hp m) (hhead (he (hp m) h)) /\
  he (hp m') h = clear_twin (w_ends (nv (hp m)) (1 + nv (hp m)) (he (hp m) h)) /\
  he (hp m') t = clear_twin (he (hp m) t) /\
  forall g, g <> h -> g <> t -> he (hp m') g = he (hp m) g.
Proof.
  intros E N. unfold tear. rewrite E. eexists. split; [reflexivity|]. cbn [hp cells mod_he set_he nh nv vx he new_vertex].
  repeat (split; [reflexivity|]). unfold upd. split; [|split; [|split; [|split; [|split]]]].
  - intros v Lv. destruct (Nat.eqb_spec v (S (nv (hp m)))); [lia|]. destruct (Nat.eqb_spec v (nv (hp m))); [lia|]. auto.
  - destruct (Nat.eqb_spec (nv (hp m)) (S (nv (hp m)))); [lia|]. rewrite Nat.eqb_refl. auto.
  - rewrite Nat.eqb_refl. reflexivity.
  - rewrite Nat.eqb_refl. destruct (Nat.eqb_spec h t); [congruence|]. rewrite ?Nat.eqb_refl. auto.
  - destruct (Nat.eqb_spec t h); [congruence|]. rewrite ?Nat.eqb_refl. auto.
  - intros g Ng Nt. destruct (Nat.eqb_spec g h); [congruence|]. destruct (Nat.eqb_spec g t); [congruence|]. auto.
Qed.

(** every half-edge of the list has a twin, which is not in the list *)
Definition one_sided (m : mesh2) (hs : list nat) : Prop :=
  forall h, In h hs -> exists t, twin (he (hp m) h) = Some t /\ ~ In t hs.
(** what is left of half-edge [g] *)
Definition torn (hs : list nat) (m m' : mesh2) : Prop :=
  cells m' = cells m /\ nh (hp m') = nh (hp m) /\ nv (hp m') = 2 * length hs + nv (hp m) /\
  (forall v, v < nv (hp m) -> vx (hp m') v = vx (hp m) v) /\
  (forall i h, nth_error hs i = Some h ->
     hbase (he (hp m') h) = 2 * i + nv (hp m) /\ hhead (he (hp m') h) = S (2 * i + nv (hp m)) /\
     vx (hp m') (hbase (he (hp m') h)) = vx (hp m) (hbase (he (hp m) h)) /\ vx (hp m') (hhead (he (hp m') h)) = vx (hp m) (hhead (he (hp m) h)) /\
     twin (he (hp m') h) = None /\ forall t, twin (he (hp m) h) = Some t -> twin (he (hp m') t) = None) /\
  (forall g, ~ In g hs -> hbase (he (hp m') g) = hbase (he (hp m) g) /\ hhead (he (hp m') g) = hhead (he (hp m) g) /\
     ((forall h, In h hs -> twin (he (hp m) h) <> Some g) -> twin (he (hp m') g) = twin (he (hp m) g))) /\
  (forall g, hcell (he (hp m') g) = hcell (he (hp m) g) /\ next (he (hp m') g) = next (he (hp m) g) /\ prev (he (hp m') g) = prev (he (hp m) g) /\
     hkids (he (hp m') g) = hkids (he (hp m) g) /\ hpar (he (hp m') g) = hpar (he (hp m) g)).
Definition sym (m : mesh2) (hs : list nat) : Prop :=
  forall h, In h hs -> hbase (he (hp m) h) < nv (hp m) /\ hhead (he (hp m) h) < nv (hp m) /\
    forall t, twin (he (hp m) h) = Some t -> twin (he (hp m) t) = Some h /\ t <> h.

Lemma tear_step m h t hs : sym m (h :: hs) -> NoDup (h :: hs) -> twin (he (hp m) h) = Some t ->
  exists m1, tear m h = Ok m1 /\ torn [h] m m1 /\ sym m1 hs /\
    (forall g, In g hs -> twin (he (hp m1) g) = if g =? t then None else twin (he (hp m) g)).
Proof.
  intros S N E. destruct (S h (or_introl eq_refl)) as [Lb [Lh Sh]]. destruct (Sh t E) as [Et Nt].
  destruct (tear_ok m h t E Nt) as [m1 [E1 [Ec [En [Ev [V0 [V1 [V2 [Hh [Ht Ho]]]]]]]]]]. exists m1. split; auto.
  assert (V2' : vx (hp m1) (1 + nv (hp m)) = vx (hp m) (hhead (he (hp m) h))) by exact V2.
  inversion N as [|? ? N1 N2]; subst.
  assert (TW : forall g, In g hs -> twin (he (hp m1) g) = if g =? t then None else twin (he (hp m) g)).
  { intros g Ig. assert (g <> h) by (intros ->; auto). destruct (Nat.eqb_spec g t) as [->|Ng]; [rewrite Ht; reflexivity|rewrite Ho; auto]. }
  split; [|split; [|exact TW]].
  - split; [exact Ec|]. split; [exact En|]. split; [rewrite Ev; reflexivity|]. split; [exact V0|]. split; [|split].
    + intros [|[|i]] x Ex; [injection Ex as <-|discriminate|discriminate]. rewrite Hh. cbn [hbase hhead twin clear_twin w_ends]. 
      split; [reflexivity|]. split; [reflexivity|]. split; [exact V1|]. split; [exact V2'|]. split; [reflexivity|]. intros t' Et'. assert (t' = t) by congruence. subst t'. rewrite Ht. reflexivity.
    + intros g Ng. assert (g <> h) by (intros ->; apply Ng; left; auto). destruct (Nat.eq_dec g t) as [->|N']; [rewrite Ht|rewrite Ho; auto].
      cbn [hbase hhead clear_twin]. split; auto. split; auto. intros A. exfalso. apply (A h); [left; auto|auto].
    + intros g. destruct (Nat.eq_dec g h) as [->|N']; [rewrite Hh; repeat split; reflexivity|]. destruct (Nat.eq_dec g t) as [->|N'']; [rewrite Ht; repeat split; reflexivity|]. rewrite Ho by auto. repeat split; reflexivity.
  - intros g Ig. assert (Ngh : g <> h) by (intros ->; auto). destruct (S g (or_intror Ig)) as [B1 [B2 B3]].
    assert (BH : hbase (he (hp m1) g) = hbase (he (hp m) g) /\ hhead (he (hp m1) g) = hhead (he (hp m) g)).
    { destruct (Nat.eq_dec g t) as [->|N']; [rewrite Ht; split; reflexivity|rewrite Ho; auto]. }
    destruct BH as [-> ->]. rewrite Ev. split; [lia|]. split; [lia|]. intros t' Et'. rewrite TW in Et' by auto. destruct (Nat.eqb_spec g t) as [->|Ng]; [discriminate|].
    destruct (B3 t' Et') as [F1 F2]. split; auto. rewrite Ho; auto.
    + intros ->. congruence.
    + intros ->. congruence.
Qed.
Lemma torn_trans h hs m m1 m2 : sym m (h :: hs) -> NoDup (h :: hs) -> (forall t, twin (he (hp m) h) = Some t -> ~ In t hs) -> torn [h] m m1 -> torn hs m1 m2 -> torn (h :: hs) m m2.
Proof.
  intros Sm N NT [C1 [H1 [V1 [X1 [A1 [B1 D1]]]]]] [C2 [H2 [V2 [X2 [A2 [B2 D2]]]]]].
  cbn [length] in V1. destruct (A1 0 h eq_refl) as [a1 [a2 [a3 [a4 [a5 a6]]]]]. inversion N as [|? ? N1 N2]; subst.
  split; [congruence|]. split; [congruence|]. split; [rewrite V2, V1; cbn [length]; lia|]. split; [intros v Lv; rewrite X2, X1; auto; lia|]. split; [|split].
  - intros [|i] x Ex; cbn [nth_error] in Ex.
    + injection Ex as <-. destruct (B2 h N1) as [b1 [b2 b3]]. rewrite b1, b2, a1, a2. split; [lia|]. split; [lia|].
      rewrite !X2 by lia. rewrite <- a3, <- a4, a1, a2. split; auto. split; auto. split.
      * rewrite b3; auto. intros g Ig E. destruct (in_dec Nat.eq_dec g [h]) as [K|K]; [destruct K as [<-|[]]; auto|].
        destruct (B1 g K) as [_ [_ c3]]. rewrite c3 in E.
        -- destruct (Sm g (or_intror Ig)) as [_ [_ S3]]. destruct (S3 h E) as [S4 _]. apply (NT g S4 Ig).
        -- intros h' [<-|[]] E'. apply (NT g E' Ig).
      * intros t Et. destruct (B2 t (NT t Et)) as [_ [_ c3]]. rewrite c3; [apply a6; auto|].
        intros g Ig E. destruct (in_dec Nat.eq_dec g [h]) as [K|K]; [destruct K as [<-|[]]; auto|].
        destruct (B1 g K) as [_ [_ d3]]. rewrite d3 in E.
        -- destruct (Sm g (or_intror Ig)) as [_ [_ S3]]. destruct (S3 t E) as [S4 _]. destruct (Sm h (or_introl eq_refl)) as [_ [_ S5]]. destruct (S5 t Et) as [S6 _]. assert (g = h) by congruence. subst; auto.
        -- intros h' [<-|[]] E'. apply (NT g E' Ig).
    + assert (Ix : In x hs) by (eapply nth_error_In; eauto). destruct (A2 i x Ex) as [c1 [c2 [c3 [c4 [c5 c6]]]]].
      assert (Nx : ~ In x [h]) by (intros [<-|[]]; auto). destruct (B1 x Nx) as [d1 [d2 d3]]. destruct (Sm x (or_intror Ix)) as [e1 [e2 e3]].
      rewrite c1, c2 in *. rewrite c3, c4, d1, d2, !X1 by auto. split; [lia|]. split; [lia|]. split; auto. split; auto. split; auto.
      intros t Et. apply c6. rewrite d3; auto. intros h' [<-|[]] E'. apply (NT x E' Ix).
  - intros g Ng. assert (Ng1 : ~ In g [h]) by (intros [<-|[]]; apply Ng; left; auto). assert (Ng2 : ~ In g hs) by (intros K; apply Ng; right; auto).
    destruct (B1 g Ng1) as [b1 [b2 b3]]. destruct (B2 g Ng2) as [c1 [c2 c3]]. split; [congruence|]. split; [congruence|]. intros A. rewrite c3, b3; auto.
    + intros h' [<-|[]]. apply A. left; auto.
    + intros h' Ih E'. assert (K : ~ In h' [h]) by (intros [<-|[]]; auto). destruct (B1 h' K) as [_ [_ d3]]. rewrite d3 in E'; [apply (A h' (or_intror Ih) E')|].
      intros h'' [<-|[]] E''. apply (NT h' E'' Ih).
  - intros g. destruct (D1 g) as [d1 [d2 [d3 [d4 d5]]]]. destruct (D2 g) as [e1 [e2 [e3 [e4 e5]]]]. repeat (split; [congruence|]). congruence.
Qed.
Lemma tear_all : forall hs m, NoDup hs -> sym m hs -> one_sided m hs -> exists m', fold_res tear hs m = Ok m' /\ torn hs m m'.
Proof.
  induction hs as [|h hs IH]; intros m N Sm O; cbn [fold_res].
  - exists m. split; auto. split; auto. split; auto. split; auto. split; auto. split; [intros [|i] x Ex; discriminate|]. split; auto.
  - destruct (O h (or_introl eq_refl)) as [t [Et Nt]]. destruct (tear_step m h t hs Sm N Et) as [m1 [E1 [T1 [S1 W1]]]]. rewrite E1. cbn [bind].
    inversion N as [|? ? N1 N2]; subst.
    destruct (IH m1 N2 S1) as [m2 [E2 T2]].
    { intros g Ig. destruct (O g (or_intror Ig)) as [t' [Et' Nt']]. exists t'. rewrite W1 by auto. destruct (Nat.eqb_spec g t) as [->|Ng].
      - exfalso. apply Nt. right; auto.
      - split; auto. intros K. apply Nt'. right; auto. }
    exists m2. split; auto. apply (torn_trans h hs m m1 m2); auto. intros t' Et' K. assert (t' = t) by congruence. subst t'. apply Nt. right; auto.
Qed.
Lemma tear_stuck : forall hs m, NoDup hs -> sym m hs -> ~ one_sided m hs -> fold_res tear hs m = Err AttributeError.
Proof.
  induction hs as [|h hs IH]; intros m N Sm O; cbn [fold_res].
  - exfalso. apply O. intros h [].
  - destruct (twin (he (hp m) h)) as [t|] eqn:Et; [|unfold tear; rewrite Et; reflexivity].
    destruct (tear_step m h t hs Sm N Et) as [m1 [E1 [T1 [S1 W1]]]]. rewrite E1. cbn [bind]. inversion N as [|? ? N1 N2]; subst.
    apply IH; auto. intros O1. apply O. destruct (in_dec Nat.eq_dec t hs) as [It|It].
    + destruct (O1 t It) as [t' [Et' _]]. rewrite W1, Nat.eqb_refl in Et' by auto. discriminate.
    + intros g [<-|Ig].
      * exists t. split; auto. intros [<-|K]; auto. destruct (Sm h (or_introl eq_refl)) as [_ [_ S3]]. destruct (S3 h Et); congruence.
      * destruct (O1 g Ig) as [t' [Et' Nt']]. rewrite W1 in Et' by auto. destruct (Nat.eqb_spec g t) as [->|Ng]; [discriminate|].
        exists t'. split; auto. intros [<-|K]; auto. destruct (Sm g (or_intror Ig)) as [_ [_ S3]]. destruct (S3 h Et') as [S4 _]. congruence.
Qed.

(** the half-edges of a region *)
Definition region_hes (M : rmesh) (sf fl : option flag) (h : nat) : Prop :=
  (exists p, found_in M sf false (Hed h) p) /\ forall g, fl = Some g -> labelled M (Hed h) g.
Section TEAR.
Variables (pts : list pt) (faces : list (list nat)) (m0 : mesh2) (M : rmesh) (sf fl : option flag) (order : list nat -> list nat).
Hypothesis H : mesh_history pts faces m0 (rm M).
Hypothesis Hn : n_root M = nh (hp m0).
Hypothesis Rt : submesh_rooted (cells (rm M)) sf.
Hypothesis Ho : forall l, Permutation (order l) l.
Let m := rm M.
Let Iv : sinv m := m_s _ _ _ (history_minv _ _ _ _ H).
Lemma tear_list : exists hs, NoDup hs /\ (forall h, In h hs <-> region_hes M sf fl h) /\ sym m hs /\
  tear_region fl sf order M = bind (fold_res tear hs m) (fun m' => Ok (mkR m' (n_root M) (hlab M) (vlab M))).
Proof.
  destruct (C68_get pts faces m0 M sf fl EHalfEdge false H Hn Rt) as [out [_ [G [O _]]]].
  set (l := flat_map (fun x => match x with Hed h => [h] | _ => [] end) (map fst out)).
  exists (order (nodup Nat.eq_dec l)).
  assert (IN : forall h, In h (order (nodup Nat.eq_dec l)) <-> region_hes M sf fl h).
  { intros h. assert (P1 : In h (order (nodup Nat.eq_dec l)) <-> In h (nodup Nat.eq_dec l)) by (split; apply Permutation_in; [apply Ho|apply Permutation_sym, Ho]).
    rewrite P1, nodup_In. unfold l. rewrite in_flat_map. unfold region_hes. split.
    - intros [x [Ix Ih]]. apply in_map_iff in Ix. destruct Ix as [[y p] [Ey Ip]]. cbn [fst] in Ey. subst y. apply O in Ip. destruct x; try destruct Ih as []; try contradiction. subst. destruct Ip as [_ [F L]]. split; eauto.
    - intros [[p F] L]. exists (Hed h). split; [|left; auto]. apply in_map_iff. exists (Hed h, p). split; auto. apply O. auto. }
  split; [eapply Permutation_NoDup; [apply Permutation_sym, Ho|apply NoDup_nodup]|]. split; auto. split.
  - intros h Ih. apply IN in Ih. destruct Ih as [[p [_ [k Sd]]] _]. apply (is_side_iff _ _ _ _ Iv) in Sd. destruct Sd as [Hp [Lk ->]].
    destruct (side_good Iv p k Hp Lk) as [Ls _]. destruct (i_v _ (s_h _ Iv) _ Ls) as [V1 V2]. split; auto. split; auto. intros t Et.
    destruct (i_t _ (s_h _ Iv) _ _ Ls Et) as [_ [A [B _]]]. auto.
  - unfold tear_region. rewrite G. reflexivity.
Qed.
End TEAR.

(** tear_region, after any history, for every order in which the set is run
    through.  It succeeds exactly if every half-edge of the region has a twin and
    the twin is not in the region (otherwise AttributeError); then each half-edge
    of the region has two new vertices at the old places, it and its twin have
    lost each other, and nothing else is changed. *)
Theorem C69_tear pts faces m0 M sf fl order :
  mesh_history pts faces m0 (rm M) -> n_root M = nh (hp m0) -> submesh_rooted (cells (rm M)) sf -> (forall l, Permutation (order l) l) ->
  exists hs, NoDup hs /\ (forall h, In h hs <-> region_hes M sf fl h) /\
    (one_sided (rm M) hs -> exists M', tear_region fl sf order M = Ok M' /\ torn hs (rm M) (rm M') /\
       hlab M' = hlab M /\ vlab M' = vlab M) /\
    (~ one_sided (rm M) hs -> tear_region fl sf order M = Err AttributeError).
Proof.
  intros H Hn Rt Ho. destruct (tear_list pts faces m0 M sf fl order H Hn Rt Ho) as [hs [N [I [Sm E]]]]. exists hs. split; auto. split; auto. rewrite E. split.
  - intros O. destruct (tear_all hs (rm M) N Sm O) as [m' [E' T']]. rewrite E'. cbn [bind]. eexists. split; [reflexivity|]. auto.
  - intros O. rewrite (tear_stuck hs (rm M) N Sm O). auto.
Qed.
Print Assumptions C69_tear.

(** A region that was marked with mark_region cannot be torn, if it has a
    half-edge on the boundary of the domain or both half-edges of a pair. *)
Theorem C69_mark_tear_refuted pts faces m0 M sf g f strict order p k h :
  mesh_history pts faces m0 (rm M) -> n_root M = nh (hp m0) -> submesh_rooted (cells (rm M)) sf -> (forall l, Permutation (order l) l) ->
  sub_leaf (cells (rm M)) sf p -> is_side (rm M) p k h -> in_region f strict (rm M) (Hed h) ->
  (twin (he (hp (rm M)) h) = None \/ exists t q j, twin (he (hp (rm M)) h) = Some t /\ sub_leaf (cells (rm M)) sf q /\ is_side (rm M) q j t) ->
  exists M', mark_region g f EHalfEdge strict false sf M = Ok M' /\ tear_region (Some g) sf order M' = Err AttributeError.
Proof.
  intros H Hn Rt Ho Lp Sd Rg C. destruct (C68_mark pts faces m0 M sf g f EHalfEdge strict false H Hn Rt ltac:(discriminate)) as [M' [E [H' [Hn' [Eh [Sb L]]]]]].
  destruct (mark_result pts faces m0 M sf H Hn Rt g f EHalfEdge strict false ltac:(discriminate)) as [M2 [E2 B]]. assert (M2 = M') by congruence. subst M2.
  destruct B as [a b c _ _ _].
  assert (E4 : forall s p, sf = Some s -> marked_at (cells (rm M')) p s = marked_at (cells (rm M)) p s).
  { intros s q Es. apply eq_true_iff_eq. rewrite (L (Cel q) s : marked_at (cells (rm M')) q s = true <-> _). split; [|auto]. intros [A|[_ [A _]]]; [auto|discriminate]. }
  exists M'. split; auto. pose proof (ext_rooted M M' sf b E4 Rt) as Rt'.
  destruct (C69_tear pts faces m0 M' sf (Some g) order H' ltac:(congruence) Rt' Ho) as [hs [_ [IN [_ ERR]]]]. apply ERR. intros O.
  assert (MEM : forall p k h, sub_leaf (cells (rm M)) sf p -> is_side (rm M) p k h -> in_region f strict (rm M) (Hed h) -> In h hs).
  { intros q j x Lq Sq Rq. apply IN. split.
    - exists q. split; [apply (ext_leaf M M' sf); auto|]. exists j. apply (ext_side M M'); auto.
    - intros g' [= <-]. apply L. right. split; auto. split; auto. split; auto. exists q. split; auto. exists j. auto. }
  destruct (O h (MEM p k h Lp Sd Rg)) as [t [Et Nt]]. rewrite Eh in Et. destruct C as [C|[t' [q [j [Et' [Lq Sq]]]]]]; [congruence|].
  assert (t' = t) by congruence. subst t'. apply Nt. apply (MEM q j t Lq Sq).
  destruct (proj1 (C28_twin _ _ _ _ _ _ _ H Sd) t Et) as [q' [j' [_ [_ [_ [_ [_ [e1 e2]]]]]]]]. unfold in_region in *. destruct strict.
  - intros v Cv. apply Rg. simpl in *. rewrite e1, e2 in Cv. tauto.
  - destruct Rg as [v [Cv Fv]]. exists v. split; auto. simpl in *. rewrite e1, e2. tauto.
Qed.
Print Assumptions C69_mark_tear_refuted.

(** Wherever the mesh is torn, the sides of the cell no longer meet: the previous
    side does not end where the torn side begins, nor does the torn side end where
    the next one begins. *)
Theorem C69_gap_refuted pts faces m0 m m' hs p k h pr nx : mesh_history pts faces m0 m -> NoDup hs -> torn hs m m' ->
  In h hs -> is_side m p k h -> is_side m p ((k + 3) mod 4) pr -> is_side m p ((k + 1) mod 4) nx ->
  hhead (he (hp m) pr) = hbase (he (hp m) h) /\ hhead (he (hp m') pr) <> hbase (he (hp m') h) /\
  hhead (he (hp m) h) = hbase (he (hp m) nx) /\ hhead (he (hp m') h) <> hbase (he (hp m') nx) /\
  is_side m' p k h /\ is_side m' p ((k + 3) mod 4) pr /\ is_side m' p ((k + 1) mod 4) nx.
Proof.
  intros H N [Ec [_ [_ [_ [A [B _]]]]]] Ih Sd Sp Sn. pose proof (m_s _ _ _ (history_minv _ _ _ _ H)) as Iv.
  assert (SS : forall q j x, is_side m q j x -> is_side m' q j x) by (unfold is_side; rewrite Ec; auto).
  assert (OLD : forall q j x, is_side m q j x -> hbase (he (hp m) x) < nv (hp m) /\ hhead (he (hp m) x) < nv (hp m)).
  { intros q j x Sx. apply (is_side_iff _ _ _ _ Iv) in Sx. destruct Sx as [Hq [Lj ->]]. destruct (side_good Iv q j Hq Lj) as [Ls _]. apply (i_v _ (s_h _ Iv) _ Ls). }
  apply In_nth_error in Ih. destruct Ih as [i Ei]. destruct (A i h Ei) as [a1 [a2 _]]. rewrite a1, a2.
  assert (OP : hhead (he (hp m) pr) = hbase (he (hp m) h) /\ hhead (he (hp m) h) = hbase (he (hp m) nx)).
  { pose proof Sd as Sd'. apply (is_side_iff _ _ _ _ Iv) in Sd', Sp, Sn. destruct Sd' as [Hp [Lk ->]], Sp as [_ [Lp ->]], Sn as [_ [Ln ->]].
    destruct (side_good Iv p k Hp Lk) as [_ [_ [F1 _]]]. destruct (side_good Iv p _ Hp Lp) as [_ [_ [F2 _]]]. split; [|exact F1].
    replace ((((k + 3) mod 4) + 1) mod 4) with k in F2 by (clear - Lk; destruct k as [|[|[|[|]]]]; cbn; auto; lia). exact F2. }
  destruct OP as [O1 O2]. split; auto. split; [|split; [auto|split; [|auto]]].
  - destruct (in_dec Nat.eq_dec pr hs) as [Ip|Np].
    + apply In_nth_error in Ip. destruct Ip as [j Ej]. destruct (A j pr Ej) as [_ [b2 _]]. rewrite b2. lia.
    + destruct (B pr Np) as [_ [-> _]]. pose proof (proj2 (OLD _ _ _ Sp)). lia.
  - destruct (in_dec Nat.eq_dec nx hs) as [Ip|Np].
    + apply In_nth_error in Ip. destruct Ip as [j Ej]. destruct (A j nx Ej) as [b1 _]. rewrite b1. lia.
    + destruct (B nx Np) as [-> _]. pose proof (proj1 (OLD _ _ _ Sn)). lia.
Qed.
Print Assumptions C69_gap_refuted.

(** The vertices of the two cells are not separated: where the next side of the
    cell is not torn too, its first vertex is still a vertex of the cell on the
    other side. *)
Theorem C69_separate_refuted pts faces m0 m m' hs p k h nx t q j : mesh_history pts faces m0 m -> NoDup hs -> one_sided m hs -> torn hs m m' ->
  In h hs -> is_side m p k h -> is_side m p ((k + 1) mod 4) nx -> ~ In nx hs -> twin (he (hp m) h) = Some t -> is_side m q j t ->
  p <> q /\ exists v, corner_of m' (Cel p) v /\ corner_of m' (Cel q) v /\ vx (hp m') v = vx (hp m) (hhead (he (hp m) h)).
Proof.
  intros H N O T Ih Sd Sn Nn Et St. destruct (proj1 (C28_twin _ _ _ _ _ _ _ H Sd) t Et) as [q' [j' [Sq [_ [Nq [_ [_ [e1 e2]]]]]]]].
  pose proof (m_s _ _ _ (history_minv _ _ _ _ H)) as Iv.
  assert (q' = q). { apply (is_side_iff _ _ _ _ Iv) in St, Sq. destruct St as [Hq [Lj ->]], Sq as [Hq' [Lj' E]]. symmetry. apply (QuadInv.side_inj Iv _ _ _ _ Hq Hq' Lj Lj' E). }
  subst q'. split; [auto|]. destruct T as [Ec [_ [_ [X [A [B _]]]]]].
  assert (SS : forall q j x, is_side m q j x -> is_side m' q j x) by (unfold is_side; rewrite Ec; auto).
  assert (OP : hhead (he (hp m) h) = hbase (he (hp m) nx) /\ hhead (he (hp m) h) < nv (hp m)).
  { apply (is_side_iff _ _ _ _ Iv) in Sd, Sn. destruct Sd as [Hp [Lk ->]], Sn as [_ [Ln ->]].
    destruct (side_good Iv p k Hp Lk) as [L [_ [F1 _]]]. split; [exact F1|]. apply (i_v _ (s_h _ Iv) _ L). }
  destruct OP as [OP Lv]. exists (hbase (he (hp m) nx)). split; [|split].
  - exists ((k + 1) mod 4), nx. split; [apply SS; auto|]. destruct (B nx Nn) as [-> _]. auto.
  - exists j, t. split; [apply SS; auto|]. assert (Nt : ~ In t hs) by (destruct (O h Ih) as [t' [Et' Nt]]; congruence). destruct (B t Nt) as [-> _]. congruence.
  - rewrite X by lia. congruence.
Qed.
Print Assumptions C69_separate_refuted.

(** Cases, on the mesh of C67_case: the half-edges on the line x = 1 cannot be
    torn; a single labelled half-edge can. *)
Notation ex_T := (mkR (got ex_mesh) 8 (fun h g => (h =? 13) && (g =? 7)) (fun _ _ => false)).
Definition look (r : res rmesh) : res (nat * nat * nat * option nat * option nat) :=
  bind r (fun M => let s := hp (rm M) in Ok (nv s, hbase (he s 13), hhead (he s 13), twin (he s 13), twin (he s 52))).
Example C69_case : exists m0, mesh_history (grid_points 0 2 0 1 2 1) (grid_faces 2 1) m0 (rm ex_T) /\ n_root ex_T = nh (hp m0) /\
  submesh_rooted (cells (rm ex_T)) None /\
  look (Ok ex_T) = Ok (20, 8, 4, Some 52, Some 13) /\
  look (tear_region (Some 7) None (fun l => l) ex_T) = Ok (22, 20, 21, None, None) /\
  look (bind (mark_region 7 (fun p => Qeq_bool (fst p) 1) EHalfEdge true false None ex_R) (tear_region (Some 7) None (fun l => l))) = Err AttributeError.
Proof.
  destruct C67_case as [m0 [H [E [R _]]]]. exists m0. split; [exact H|]. split; [symmetry; exact E|]. split; [exact R|].
  split; [vm_cast_no_check (@eq_refl (res (nat * nat * nat * option nat * option nat)) (Ok (20, 8, 4, Some 52, Some 13)))|].
  split; [vm_cast_no_check (@eq_refl (res (nat * nat * nat * option nat * option nat)) (Ok (22, 20, 21, None, None)))|].
  vm_cast_no_check (@eq_refl (res (nat * nat * nat * option nat * option nat)) (Err AttributeError)).
Qed.

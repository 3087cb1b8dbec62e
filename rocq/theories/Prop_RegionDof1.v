(** * C74: degrees of freedom of regions and of Dirichlet conditions in 1D *)
From Coq Require Import List Arith Bool Lia QArith Lqa.
From Verif Require Import Tree Forest History SpecForest TreeFacts ForestFacts LabelFacts Geom SpecGeom Mesh1D Mesh1DFacts GenFacts Fem Dof SpecDof Solver NodalFacts Nodal1Interp Region RegionDof Region1 SpecRegion1 Region1Facts Prop_Region1 Prop_RegionDof Prop_Dof1D.
Import ListNotations.
Open Scope nat_scope.

Lemma node_slots e k r : nth_error (reference_nodes1 e) k = Some r ->
  (k < n_dofs D1 e) /\ (0 <= r <= 1)%Q /\ ((r == 0)%Q <-> e <> DQ0 /\ k = 0) /\ ((r == 1)%Q <-> e <> DQ0 /\ k = 1) .
Proof.
  intros E. assert (L : k < n_dofs D1 e) by (rewrite <- (nodes_len e); apply nth_error_Some; congruence). split; auto.
  assert (R : exists q, r = q /\ nth_error (reference_nodes1 e) k = Some q) by eauto. destruct R as [q [-> Eq]]. clear E.
  destruct e; cbv in L; do 4 (try destruct k as [|k]); try lia; vm_compute in Eq; injection Eq as <-; (split; [split; intro; discriminate|]);
    (split; (split; [intros A; first [vm_compute in A; discriminate|split; [discriminate|reflexivity]]|intros [A B]; first [congruence|discriminate|reflexivity]])).
Qed.
Lemma imap_0 (d : itv) r : (fst d < snd d)%Q -> (imap d r == fst d <-> r == 0)%Q.
Proof.
  intros W. unfold imap. split; intros E; [|rewrite E; ring]. assert (E2 : (r * (snd d - fst d) == 0)%Q) by lra. apply Qmult_integral in E2. destruct E2; [auto|lra].
Qed.
Lemma imap_1 (d : itv) r : (fst d < snd d)%Q -> (imap d r == snd d <-> r == 1)%Q.
Proof.
  intros W. unfold imap. split; intros E; [|rewrite E; ring]. assert (E2 : ((r - 1) * (snd d - fst d) == 0)%Q) by lra. apply Qmult_integral in E2. destruct E2; lra.
Qed.

Lemma cell_width a b M p n : line_mesh a b M -> fget (m1_cells M) p = Some n -> (fst (n_data n) < snd (n_data n))%Q.
Proof. intros H E. pose proof (lm_gen a b M H) as G. destruct H as [_ [T _]]. apply (@cell_bounds (m1_cells M) a b G T p n E). Qed.

Lemma dof_list s p n : filled n s p -> exists ds, gd s p = Some (map Some ds) /\ length ds = n /\ forall k d, dof_at s p k d <-> nth_error ds k = Some d.
Proof.
  intros [l [E [Ln F]]].
  assert (G : exists ds, l = map Some ds).
  { exists (map (fun o => match o with Some d => d | None => 0 end) l). rewrite map_map. rewrite <- (map_id l) at 1. apply map_ext_in. intros o Io.
    apply In_nth_error in Io. destruct Io as [k Ek]. assert (Lk : k < n) by (rewrite <- Ln; apply nth_error_Some; congruence).
    destruct (F k Lk) as [d [l2 [E2 H2]]]. rewrite E in E2. injection E2 as <-. assert (o = Some d) by congruence. subst o. reflexivity. }
  destruct G as [ds ->]. exists ds. split; auto. split; [rewrite map_length in Ln; auto|]. intros k d. split.
  - intros [l2 [E2 H2]]. rewrite E in E2. injection E2 as <-. rewrite nth_error_map in H2. destruct (nth_error ds k); simpl in H2; congruence.
  - intros H. exists (map Some ds). split; auto. rewrite nth_error_map, H. reflexivity.
Qed.
Lemma slice_in {X} (l : list X) : forall i c d, In d (firstn c (skipn i l)) <-> exists k, i <= k < i + c /\ nth_error l k = Some d.
Proof.
  induction l as [|x l IH]; intros i c d.
  - rewrite skipn_nil, firstn_nil. split; [intros []|intros [k [_ E]]]. destruct k; discriminate.
  - destruct i as [|i].
    + cbn [skipn]. destruct c as [|c]; [split; [intros []|intros [k [L _]]; lia]|]. cbn [firstn In]. specialize (IH 0 c d). cbn [skipn] in IH. rewrite IH. split.
      * intros [->|[k [L E]]]; [exists 0; split; [lia|reflexivity]|exists (S k); split; [lia|exact E]].
      * intros [[|k] [L E]]; [left; injection E; auto|right; exists k; split; [lia|exact E]].
    + cbn [skipn]. rewrite IH. split; [intros [k [L E]]; exists (S k); split; [lia|exact E]|intros [[|k] [L E]]; [lia|exists k; split; [lia|exact E]]].
Qed.
Lemma slice_map (l : list nat) i c : firstn c (skipn i (map (@Some nat) l)) = map Some (firstn c (skipn i l)).
Proof. rewrite skipn_map, firstn_map. reflexivity. Qed.

(** get_cell_dofs(cell, entity, interior) in a cell whose dofs were distributed:
    the dofs of the slots whose nodes lie on the entity *)
Theorem C74_entity a b M e s p x interior : line_mesh a b M -> filled (n_dofs D1 e) s p -> present (m1_cells M) p = true -> part_of1 (m1_cells M) p x ->
  exists ds, entity_dofs1 e (m1_cells M) s p x interior = Ok (Some (map Some ds)) /\
    forall d, In d ds <-> exists k, slot_on1 e (m1_cells M) p x interior k /\ dof_at s p k d.
Proof.
  intros H F Pp Px. unfold present in Pp. destruct (fget (m1_cells M) p) as [n|] eqn:En; [|discriminate]. pose proof (cell_width a b M p n H En) as W.
  destruct (dof_list s p _ F) as [ds [E [Ln D]]]. unfold entity_dofs1. rewrite E.
  assert (PO : forall k, k < n_dofs D1 e -> exists r, nth_error (reference_nodes1 e) k = Some r /\ position1 e (m1_cells M) p k (imap (n_data n) r)).
  { intros k Lk. destruct (nth_error (reference_nodes1 e) k) as [r|] eqn:Er; [|apply nth_error_None in Er; rewrite nodes_len in Er; lia]. exists r. split; auto. exists n, r. auto. }
  assert (PI : forall k y, position1 e (m1_cells M) p k y -> exists r, nth_error (reference_nodes1 e) k = Some r /\ y = imap (n_data n) r).
  { intros k y [n' [r [E' [Er ->]]]]. rewrite En in E'. injection E' as <-. eauto. }
  assert (DL : forall k d, dof_at s p k d -> k < n_dofs D1 e) by (intros k d Hd; apply D in Hd; rewrite <- Ln; apply nth_error_Some; congruence).
  destruct x as [v|q].
  - destruct Px as [n' [E' V]]. rewrite En in E'. injection E' as <-. unfold verts1. rewrite En. cbn [itv_verts vertex_slots].
    assert (KK : forall (i : nat) (Q0 : Q), (v == Q0)%Q -> (i < 2) -> (forall r, (imap (n_data n) r == Q0 <-> r == inject_Z (Z.of_nat i)))%Q ->
       forall d, In d (firstn (dpv e) (skipn (i * dpv e) ds)) <-> exists k, slot_on1 e (m1_cells M) p (Vtx1 v) interior k /\ dof_at s p k d).
    { intros i Q0 Ev Li Hr d. rewrite slice_in. split.
      - intros [k [Lk Ek]]. assert (Ne : e <> DQ0) by (intros ->; cbn in Lk; lia). assert (dpv e = 1) by (destruct e; try reflexivity; congruence). assert (k = i) by nia. subst k.
        apply D in Ek. destruct (PO i (DL _ _ Ek)) as [r [Er Pr]]. exists i. split; auto. eexists. split; [exact Pr|]. rewrite Ev. apply Hr.
        destruct (node_slots e i r Er) as [_ [_ [A0 A1]]]. destruct i as [|[|]]; [apply A0; auto|apply A1; auto|lia].
      - intros [k [[y [Py Ey]] Dk]]. destruct (PI k y Py) as [r [Er ->]]. rewrite Ev in Ey. apply Hr in Ey. destruct (node_slots e k r Er) as [_ [_ [A0 A1]]].
        assert (NK : e <> DQ0 /\ k = i) by (destruct i as [|[|]]; [apply A0; auto|apply A1; auto|lia]). destruct NK as [Ne ->]. assert (dpv e = 1) by (destruct e; try reflexivity; congruence).
        exists i. split; [lia|]. apply D. auto. }
    destruct (Qeq_bool (Qred (fst (n_data n))) v) eqn:E0.
    + apply Qeq_bool_iff in E0. rewrite Qred_correct in E0. rewrite slice_map. cbn [bind]. eexists. split; [reflexivity|].
      apply (KK 0 (fst (n_data n)) ltac:(symmetry; exact E0) ltac:(lia)). intros r. apply (imap_0 _ r W).
    + destruct (Qeq_bool (Qred (snd (n_data n))) v) eqn:E1.
      * apply Qeq_bool_iff in E1. rewrite Qred_correct in E1. rewrite slice_map. cbn [bind]. eexists. split; [reflexivity|].
        pose proof (KK 1 (snd (n_data n)) ltac:(symmetry; exact E1) ltac:(lia)) as K. rewrite Nat.mul_1_l in K. apply K. intros r. apply (imap_1 _ r W).
      * exfalso. destruct V as [V|V]; [assert (Z : Qeq_bool (Qred (fst (n_data n))) v = true) by (apply Qeq_bool_iff; rewrite Qred_correct; symmetry; auto)|assert (Z : Qeq_bool (Qred (snd (n_data n))) v = true) by (apply Qeq_bool_iff; rewrite Qred_correct; symmetry; auto)]; congruence.
  - simpl in Px. subst q. destruct interior.
    + rewrite slice_map. eexists. split; [reflexivity|]. intros d. rewrite slice_in.
      assert (IN : forall k r, nth_error (reference_nodes1 e) k = Some r -> (~ end_of (m1_cells M) p (imap (n_data n) r) <-> 2 * dpv e <= k < 2 * dpv e + dpe D1 e)).
      { intros k r Er. destruct (node_slots e k r Er) as [Lk [_ [A0 A1]]].
        assert (EN : end_of (m1_cells M) p (imap (n_data n) r) <-> (e <> DQ0 /\ k = 0) \/ (e <> DQ0 /\ k = 1)).
        { rewrite <- A0, <- A1, <- (imap_0 _ r W), <- (imap_1 _ r W). unfold end_of. split; [intros [n' [E' V]]; rewrite En in E'; injection E' as <-; auto|intros V; exists n; auto]. }
        rewrite EN. cbn in Lk. destruct e; cbn in *; split; try (intros; lia); try (intros A [[B C]|[B C]]; congruence || lia); try (intros A; assert (k <> 0 /\ k <> 1) by (split; intro; apply A; [left|right]; split; congruence); lia). }
      split.
      * intros [k [Lk Ek]]. apply D in Ek. destruct (PO k (DL _ _ Ek)) as [r [Er Pr]]. exists k. split; auto. eexists. split; [exact Pr|]. split; auto. intros _. apply (IN k r Er). auto.
      * intros [k [[y [Py [_ Hy]]] Dk]]. destruct (PI k y Py) as [r [Er ->]]. exists k. split; [apply (IN k r Er); auto|apply D; auto].
    + eexists. split; [reflexivity|]. intros d. split.
      * intros Id. apply In_nth_error in Id. destruct Id as [k Ek]. apply D in Ek. destruct (PO k (DL _ _ Ek)) as [r [Er Pr]]. exists k. split; auto. eexists. split; [exact Pr|]. split; auto. intros [=].
      * intros [k [_ Dk]]. apply D in Dk. eapply nth_error_In; eauto.
Qed.
Print Assumptions C74_entity.

(** get_region_dofs: exactly the dofs whose nodes lie on an entity of the region,
    each once *)
Theorem C74_region a b M e s ty fl interior on_boundary sf : line_mesh a b M -> submesh_rooted (m1_cells M) sf -> (on_boundary = true -> m1_per M = false) ->
  (forall p, sub_leaf (m1_cells M) sf p -> filled (n_dofs D1 e) s p) ->
  exists ds, get_region_dofs1 e M s ty fl interior on_boundary sf = Ok (map Some ds) /\ NoDup ds /\
    forall d, In d ds <-> exists x p k, kind1 x = ty /\ found1 a b M sf on_boundary x p /\ (forall g, fl = Some g -> labelled1 M x g) /\
      slot_on1 e (m1_cells M) p x interior k /\ dof_at s p k d.
Proof.
  intros H Rt P Fi. destruct (C73_get a b M sf fl ty on_boundary H Rt P) as [xs [E1 [_ I1]]]. unfold get_region_dofs1. rewrite E1. cbn [bind].
  set (f := fun xp : ent1 * path => bind (entity_dofs1 e (m1_cells M) s (snd xp) (fst xp) interior) (fun o => match o with Some ds => Ok ds | None => Err TypeError end)).
  assert (G : forall l, incl l xs -> exists ds, map_res f l = Ok (map (map Some) ds) /\ forall d, In d (concat ds) <-> exists x p k, In (x, p) l /\ slot_on1 e (m1_cells M) p x interior k /\ dof_at s p k d).
  { induction l as [|[x p] l IH]; intros Il.
    - exists []. split; [reflexivity|]. intros d. split; [intros []|intros [x [p [k [[] _]]]]].
    - destruct IH as [ds [E Id]]; [intros y Iy; apply Il; right; auto|]. pose proof (Il _ (or_introl eq_refl)) as Ix. apply I1 in Ix. destruct Ix as [_ [_ [[Lp [Px _]] _]]].
      destruct (C74_entity a b M e s p x interior H (Fi p Lp) (leaf_present1 _ _ _ Lp) Px) as [d0 [E0 I0]].
      exists (d0 :: ds). split; [cbn [map_res]; unfold f at 1; cbn [fst snd]; rewrite E0; cbn [bind]; rewrite E; reflexivity|].
      intros d. cbn [concat]. rewrite in_app_iff, I0, Id. split.
      + intros [[k [A B]]|[x' [p' [k [A B]]]]]; [exists x, p, k; split; [left; auto|auto]|exists x', p', k; split; [right; auto|auto]].
      + intros [x' [p' [k [[[= <- <-]|A] B]]]]; [left; eauto|right; eauto 6]. }
  destruct (G xs (incl_refl _)) as [ds [E Id]]. rewrite E. cbn [bind]. rewrite <- concat_map.
  destruct (nodup_some (concat ds)) as [l' [El [Nl Il]]]. exists l'. rewrite El. split; auto. split; auto. intros d. rewrite Il, Id. split.
  - intros [x [p [k [A [B C]]]]]. apply I1 in A. destruct A as [_ [Kx [Fx Lx]]]. exists x, p, k. auto.
  - intros [x [p [k [Kx [Fx [Lx [B C]]]]]]]. destruct x as [v|q].
    + exists (Vtx1 (Qred v)), p, k. split.
      * apply I1. split; [apply qred_qred|]. split; auto. destruct Fx as [Lp [Px Ax]]. split; [split; [auto|split]|].
        -- simpl. eapply end_eq; [|exact Px]. symmetry. apply Qred_correct.
        -- intros O. specialize (Ax O). simpl in *. rewrite !Qred_correct. auto.
        -- intros g Eg. specialize (Lx g Eg). simpl in *. rewrite qred_qred. auto.
      * split; auto. destruct B as [y [Py Ey]]. exists y. split; auto. simpl. rewrite Qred_correct. auto.
    + exists (Cel1 q), p, k. split; auto. apply I1. split; [exact Logic.I|auto].
Qed.
Print Assumptions C74_region.

(** Dirichlet conditions on the boundary, all elements: exactly the dofs whose nodes
    are the ends of the interval; with a label, of the labelled ends. *)
Theorem C74_dirichlet a b M e s marker sf : line_mesh a b M -> submesh_rooted (m1_cells M) sf -> m1_per M = false ->
  (forall p, sub_leaf (m1_cells M) sf p -> filled (n_dofs D1 e) s p) ->
  exists ds, dirichlet_dofs1 e M s marker true sf = Ok (map Some ds) /\ NoDup ds /\
    forall d, In d ds <-> exists p k z, sub_leaf (m1_cells M) sf p /\ dof_at s p k d /\ position1 e (m1_cells M) p k z /\ (z == a \/ z == b)%Q /\
      forall g, marker = Some g -> labelled1 M (Vtx1 z) g.
Proof.
  intros H Rt P Fi. destruct (C74_region a b M e s EVertex marker false true sf H Rt (fun _ => P) Fi) as [ds [E [N I]]]. exists ds. split; auto. split; auto.
  intros d. rewrite I. split.
  - intros [x [p [k [Kx [[Lp [Px Ax]] [Lx [[y [Py Ey]] Dk]]]]]]]. destruct x as [v|]; [|discriminate]. specialize (Ax eq_refl). simpl in *.
    exists p, k, y. split; auto. split; auto. split; auto. split; [rewrite Ey; auto|]. intros g Eg. rewrite (Qred_complete _ _ Ey). auto.
  - intros [p [k [z [Lp [Dk [Py [Az Lz]]]]]]]. exists (Vtx1 z), p, k. split; auto. split; [|split; auto; split; auto; exists z; split; auto; simpl; reflexivity].
    split; auto. split; [|auto]. simpl. destruct Lp as [n [En Ln]]. exists n. split; auto. destruct (leaf_bounds a b M sf H Rt p n En Ln) as [B1 [B2 B3]].
    destruct Py as [n' [r [E' [Er ->]]]]. rewrite En in E'. injection E' as <-. destruct (node_slots e k r Er) as [_ [[R0 R1] _]]. unfold imap in *.
    assert ((fst (n_data n) <= fst (n_data n) + (snd (n_data n) - fst (n_data n)) * r <= snd (n_data n))%Q) by (split; nra). destruct Az; [left|right]; lra.
Qed.
Print Assumptions C74_dirichlet.

(** Distributed dofs: nothing else is needed. *)
Corollary C74_distributed periodic a b e f s sf s' lab marker : dof_history periodic a b e f s -> submesh_rooted f sf -> f <> [] -> distribute periodic e f sf s = Ok s' ->
  (periodic = false -> exists ds, dirichlet_dofs1 e (mkM1 f false lab) s' marker true sf = Ok (map Some ds) /\ NoDup ds /\
    forall d, In d ds <-> exists p k z, sub_leaf f sf p /\ dof_at s' p k d /\ position1 e f p k z /\ (z == a \/ z == b)%Q /\
      forall g, marker = Some g -> lab (Qred z) g = true) /\
  (periodic = true -> dirichlet_dofs1 e (mkM1 f true lab) s' marker true sf = Err TypeError).
Proof.
  intros H Rt Ne E. destruct (C33_distribute periodic a b e f s sf H Rt) as [s2 [E2 [_ [_ F]]]]. assert (s2 = s') by congruence. subst s2.
  pose proof (Dof1DHist.history_mesh _ _ _ _ _ _ H) as [[l Hl] [T _]]. split; intros ->.
  - apply (C74_dirichlet a b (mkM1 f false lab) e s' marker sf); auto; [split; [auto|split; [auto|exists l; auto]]|].
    intros p [n [En [Fn _]]]. apply F. exists n. auto.
  - unfold dirichlet_dofs1, get_region_dofs1. rewrite (proj1 (C73_periodic (mkM1 f true lab) sf marker 0 (fun _ => true) EVertex true eq_refl)). reflexivity.
Qed.
Print Assumptions C74_distributed.

(** Mark a region with a new label, ask for its dofs *)
Theorem C74_marked a b M e s sf g r ty strict on_boundary interior : line_mesh a b M -> submesh_rooted (m1_cells M) sf -> (on_boundary = true -> m1_per M = false) ->
  (forall p, sub_leaf (m1_cells M) sf p -> filled (n_dofs D1 e) s p) -> (forall x, kind1 x = ty -> ~ labelled1 M x g) ->
  exists M' ds, mark_region1 g r ty strict on_boundary sf M = Ok M' /\
    get_region_dofs1 e M' s ty (Some g) interior on_boundary sf = Ok (map Some ds) /\ NoDup ds /\
    forall d, In d ds <-> exists x p k, kind1 x = ty /\ found1 a b M sf on_boundary x p /\ in_region1 r strict (m1_cells M) x /\
      slot_on1 e (m1_cells M) p x interior k /\ dof_at s p k d.
Proof.
  intros H Rt P Fi Nl. destruct (C73_mark a b M sf g r ty strict on_boundary H Rt P) as [M' [E [H' [P' [S L]]]]]. pose proof (mark_keeps a b M sf g r ty strict on_boundary M' L) as E4.
  destruct (C74_region a b M' e s ty (Some g) interior on_boundary sf H' (ext1_rooted g _ _ sf S E4 Rt) (fun E => eq_trans P' (P E))) as [ds [G1 [G2 G3]]].
  { intros p Lp. apply Fi. apply (ext1_leaf g (m1_cells M) (m1_cells M') sf S E4). auto. }
  exists M', ds. split; auto. split; auto. split; auto. intros d. rewrite G3.
  assert (SL : forall p x k, slot_on1 e (m1_cells M') p x interior k <-> slot_on1 e (m1_cells M) p x interior k).
  { assert (PP : forall p k y, position1 e (m1_cells M') p k y <-> position1 e (m1_cells M) p k y).
    { intros p k y. pose proof (S p) as C. unfold position1. destruct (fget (m1_cells M) p) as [n|], (fget (m1_cells M') p) as [n'|]; try tauto. destruct C as [C _]. assert (EE : n_data n = n_data n') by (unfold core in C; congruence).
      split; intros [z [q [[= <-] [B C']]]]; eexists; exists q; (split; [reflexivity|]); split; auto; congruence. }
    intros p x k. unfold slot_on1. split; (intros [y [Py Y]]; exists y; split; [apply PP; auto|]); destruct x as [v|q]; auto; destruct Y as [-> Y]; split; auto; intros I0 En; apply (Y I0); apply (ext1_end g (m1_cells M) (m1_cells M') S); auto. }
  split.
  - intros [x [p [k [Kx [Fx [Lx [Sx Dx]]]]]]]. exists x, p, k. split; auto. specialize (Lx g eq_refl). apply L in Lx. split; [apply (ext1_found a b g M M'); auto|].
    split; [|split; [apply SL; auto|auto]]. destruct Lx as [A|[_ [_ [_ A]]]]; auto. destruct (Nl x Kx A).
  - intros [x [p [k [Kx [Fx [Rx [Sx Dx]]]]]]]. exists x, p, k. split; auto. split; [apply (ext1_found a b g M M'); auto|].
    split; [|split; [apply SL; auto|auto]]. intros g' [= <-]. apply L. right. split; auto. split; auto. split; eauto.
Qed.
Print Assumptions C74_marked.

(** A case: the history of C33_case; the dofs at the ends, at the vertices in
    [1/4,1/2], and inside the cells that touch this interval *)
Definition ex_M1 : mesh1 := mkM1 ex_f2 false (fun _ _ => false).
Example C74_case : dof_history false 0 1 Q2 ex_f2 (ex_s false Q2) /\ submesh_rooted ex_f2 (Some 3) /\
  dirichlet_dofs1 Q2 ex_M1 (ex_s false Q2) None true (Some 3) = Ok [Some 0; Some 3] /\
  bind (mark_region1 7 (fun x => Qle_bool (1 # 4) x && Qle_bool x (1 # 2)) EVertex true false (Some 3) ex_M1)
    (fun M => get_region_dofs1 Q2 M (ex_s false Q2) EVertex (Some 7) false false (Some 3)) = Ok [Some 1; Some 2] /\
  bind (mark_region1 7 (fun x => Qle_bool (1 # 4) x && Qle_bool x (1 # 2)) ECell false false (Some 3) ex_M1)
    (fun M => get_region_dofs1 Q2 M (ex_s false Q2) ECell (Some 7) true false (Some 3)) = Ok [Some 4; Some 6; Some 8].
Proof. split; [apply C33_case|]. split; [exact ex_rooted|]. repeat split; vm_compute; reflexivity. Qed.

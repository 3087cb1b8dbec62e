(** * Dofs of entities (for C70, C71) *)
From Coq Require Import List Arith Bool Lia QArith Lqa.
From Verif Require Import Tree Forest SpecForest TreeFacts ForestFacts Geom SpecGeom Quad SpecQuad QuadFacts QuadInv QuadNb QuadHist VertNb Prop_QuadMesh Fem SpecFem Prop_Inherit
  Dof SpecDof Dof2 SpecDof2 SurfFacts Node2Facts NodalFacts Solver Region SpecRegion RegionMain RegionDof SpecRegionDof.
Import ListNotations.
Open Scope nat_scope.

(** the slots of corner [i], of side [j], of the cell *)
Definition ends_of (j : nat) : list nat := match j with 3 => [0; 3] | _ => [j; S j] end.
Definition slots_v (e : elem) (i : nat) : list nat := seq (i * dpv e) (dpv e).
Definition slots_h (e : elem) (j : nat) (interior : bool) : list nat :=
  (if interior then [] else map (fun i => i * dpv e) (ends_of j)) ++ seq (4 * dpv e + j * dpe D2 e) (dpe D2 e).
Definition slots_c (e : elem) (interior : bool) : list nat :=
  if interior then seq (4 * dpv e + 4 * dpe D2 e) (dpc D2 e) else seq 0 (nd2 e).
Definition memb (k : nat) (l : list nat) : bool := existsb (Nat.eqb k) l.
Lemma memb_in k l : memb k l = true <-> In k l.
Proof. unfold memb. rewrite existsb_exists. split; [intros [x [I E]]; apply Nat.eqb_eq in E; subst; auto|intros I; exists k; split; auto; apply Nat.eqb_refl]. Qed.
Definition qlt (a b : Q) : bool := negb (Qle_bool b a).
Lemma qlt_iff a b : qlt a b = true <-> (a < b)%Q.
Proof. unfold qlt. rewrite negb_true_iff. destruct (Qle_bool b a) eqn:E; [apply Qle_bool_iff in E; split; [discriminate|lra]|]. split; auto. intros _. apply Qnot_le_lt. intro L. apply Qle_bool_iff in L. congruence. Qed.
Definition check_v (e : elem) := forallb (fun i => forallb (fun k => Bool.eqb (memb k (slots_v e i)) (peqb (node2 e k) (corner i))) (seq 0 (nd2 e)) && forallb (fun k => k <? nd2 e) (slots_v e i)) (seq 0 4).
Definition check_h (e : elem) (b : bool) := forallb (fun j => forallb (fun k => Bool.eqb (memb k (slots_h e j b)) (on_side j (node2 e k) &&
    (if b then qlt 0 (sparam j (node2 e k)) && qlt (sparam j (node2 e k)) 1 else true))) (seq 0 (nd2 e)) && forallb (fun k => k <? nd2 e) (slots_h e j b)) (seq 0 4).
Definition check_c (e : elem) (b : bool) := forallb (fun k => Bool.eqb (memb k (slots_c e b)) (if b then qlt 0 (fst (node2 e k)) && qlt (fst (node2 e k)) 1 && qlt 0 (snd (node2 e k)) && qlt (snd (node2 e k)) 1 else true)) (seq 0 (nd2 e)) && forallb (fun k => k <? nd2 e) (slots_c e b).
Lemma check_v_ok e : check_v e = true.
Proof. destruct e; vm_compute; reflexivity. Qed.
Lemma check_h_ok e b : (e = DQ0 -> b = true) -> check_h e b = true.
Proof. intro H. destruct e; [rewrite (H eq_refl); vm_compute; reflexivity| | | | | | ]; destruct b; vm_compute; reflexivity. Qed.
Lemma check_c_ok e b : check_c e b = true.
Proof. destruct e, b; vm_compute; reflexivity. Qed.

Lemma slots_v_iff e i : i < 4 -> forall k, In k (slots_v e i) <-> k < nd2 e /\ peq (node2 e k) (corner i).
Proof.
  intros Li k. pose proof (check_v_ok e) as A. unfold check_v in A. rewrite seq_all in A. specialize (A i Li). apply andb_prop in A. destruct A as [A B].
  rewrite seq_all in A. rewrite forallb_forall in B. split.
  - intros I. pose proof (B k I) as L. apply Nat.ltb_lt in L. split; auto. apply peqb_spec. apply memb_in in I. specialize (A k L). apply eqb_prop in A. congruence.
  - intros [L E]. apply memb_in. specialize (A k L). apply eqb_prop in A. rewrite A. apply peqb_spec. auto.
Qed.
Lemma side_iff j x (b : bool) : j < 4 -> unit_pt x -> (on_side j x && (if b then qlt 0 (sparam j x) && qlt (sparam j x) 1 else true) = true <->
  exists t, peq x (side_pt j t) /\ (if b then 0 < t < 1 else 0 <= t <= 1)%Q).
Proof.
  intros Lj [U1 U2]. rewrite andb_true_iff. split.
  - intros [O P]. exists (sparam j x). split.
    + destruct j as [|[|[|[|]]]]; try lia; unfold on_side in O; apply Qeq_bool_iff in O; unfold peq, side_pt, sparam, corner; cbn [nth fst snd Nat.add Nat.modulo Nat.divmod Nat.sub]; split; lra.
    + destruct b; [apply andb_prop in P; rewrite !qlt_iff in P; auto|]. unfold sparam. destruct j as [|[|[|[|]]]]; try lia; lra.
  - intros [t [E P]]. destruct (on_side_param j x t Lj E) as [O Et]. split; auto. destruct b; auto. rewrite andb_true_iff, !qlt_iff. lra.
Qed.
Lemma slots_h_iff e j (b : bool) : j < 4 -> (e = DQ0 -> b = true) -> forall k, In k (slots_h e j b) <-> k < nd2 e /\ exists t, peq (node2 e k) (side_pt j t) /\ (if b then 0 < t < 1 else 0 <= t <= 1)%Q.
Proof.
  intros Lj He k. pose proof (check_h_ok e b He) as A. unfold check_h in A. rewrite seq_all in A. specialize (A j Lj). apply andb_prop in A. destruct A as [A B].
  rewrite seq_all in A. rewrite forallb_forall in B. rewrite <- (side_iff j (node2 e k) b Lj (nodes2_unit e k)). split.
  - intros I. pose proof (B k I) as L. apply Nat.ltb_lt in L. split; auto. apply memb_in in I. specialize (A k L). apply eqb_prop in A. congruence.
  - intros [L E]. apply memb_in. specialize (A k L). apply eqb_prop in A. rewrite A. auto.
Qed.
Lemma slots_c_iff e b : forall k, In k (slots_c e b) <-> k < nd2 e /\ (b = true -> 0 < fst (node2 e k) < 1 /\ 0 < snd (node2 e k) < 1)%Q.
Proof.
  intros k. pose proof (check_c_ok e b) as A. unfold check_c in A. apply andb_prop in A. destruct A as [A B].
  rewrite seq_all in A. rewrite forallb_forall in B. split.
  - intros I. pose proof (B k I) as L. apply Nat.ltb_lt in L. split; auto. intros ->. apply memb_in in I. specialize (A k L). apply eqb_prop in A.
    rewrite I in A. symmetry in A. rewrite !andb_true_iff, !qlt_iff in A. tauto.
  - intros [L E]. apply memb_in. specialize (A k L). apply eqb_prop in A. rewrite A. destruct b; auto. rewrite !andb_true_iff, !qlt_iff. tauto.
Qed.

(** reading slots *)
Definition rd (l : list (option nat)) (ks : list nat) : list (option nat) := map (fun k => nth k l None) ks.
Lemma rd_app l a b : rd l (a ++ b) = rd l a ++ rd l b.
Proof. apply map_app. Qed.
Lemma slice_rd (l : list (option nat)) : forall n i, i + n <= length l -> firstn n (skipn i l) = rd l (seq i n).
Proof.
  unfold rd. induction n as [|n IH]; intros i L; [reflexivity|]. cbn [seq map]. rewrite <- IH by lia.
  assert (E : skipn i l = nth i l None :: skipn (S i) l).
  { clear IH. revert i L. induction l as [|a l IHl]; intros i L; [simpl in L; lia|]. destruct i; [reflexivity|]. cbn [skipn nth]. rewrite (IHl i) by (simpl in L; lia). reflexivity. }
  rewrite E. reflexivity.
Qed.


Section one.
Context (pts : list pt) (faces : list (list nat)) (m : mesh2).
Hypothesis M : minv pts faces m.
Context (e : elem) (p : path).
Hypothesis Hp : here m p.
Lemma sides_len : length (sides_of m p) = 4.
Proof. rewrite (sides_here _ _ _ M _ Hp). reflexivity. Qed.
Lemma in_ends i j : i < 4 -> j < 4 ->
  existsb (Nat.eqb (hbase (he (hp m) (side m p i)))) (he_vertices (hp m) (side m p j)) = (i =? j) || (i =? (j + 1) mod 4).
Proof.
  intros Li Lj. destruct (side_good (m_s _ _ _ M) p j Hp Lj) as [_ [_ [Ehd _]]]. unfold he_vertices. cbn [existsb]. rewrite Ehd, orb_false_r.
  assert (Z : forall a b, a < 4 -> b < 4 -> (hbase (he (hp m) (side m p a)) =? hbase (he (hp m) (side m p b))) = (a =? b)).
  { intros a b La Lb. apply eq_true_iff_eq. rewrite !Nat.eqb_eq. split; [intro E; apply (m_c _ _ _ M p); auto|congruence]. }
  rewrite !Z by (auto; apply m4_lt). reflexivity.
Qed.
Lemma end_dofs_rd l j : j < 4 -> length l = nd2 e -> 
  end_dofs (dpv e) 0 (he_vertices (hp m) (side m p j)) (vertices_of m p) l = Ok (rd l (map (fun i => i * dpv e) (ends_of j))).
Proof.
  intros Lj Ll. assert (RD : forall i, i < 4 -> at_ l (i * dpv e) = Ok (nth (i * dpv e) l None)).
  { intros i Li. unfold at_. rewrite (nth_error_nth' l None); [reflexivity|]. rewrite Ll. unfold nd2, n_dofs. destruct e; cbn [dpv dpe dpc]; lia. }
  rewrite (verts_list _ _ _ M _ Hp). cbn [map end_dofs].
  rewrite !in_ends by (auto; lia).
  pose proof (RD 0 ltac:(lia)) as R0. pose proof (RD 1 ltac:(lia)) as R1. pose proof (RD 2 ltac:(lia)) as R2. pose proof (RD 3 ltac:(lia)) as R3.
  replace (0 + dpv e + dpv e + dpv e) with (3 * dpv e) by lia. replace (0 + dpv e + dpv e) with (2 * dpv e) by lia. replace (0 + dpv e) with (1 * dpv e) by lia. change (at_ l 0) with (at_ l (0 * dpv e)).
  rewrite R0, R1, R2, R3. unfold rd. destruct j as [|[|[|[|]]]]; try lia; reflexivity.
Qed.
(** the slots of an entity *)
Definition slots (x : ent) (b : bool) : list nat :=
  match x with
  | Vtx v => match idx_of v (vertices_of m p) with Some i => slots_v e i | None => [] end
  | Hed h => match idx_of h (sides_of m p) with Some j => slots_h e j b | None => [] end
  | Cel q => slots_c e b
  end.
Lemma rd_all l : length l = nd2 e -> rd l (seq 0 (nd2 e)) = l.
Proof.
  intros L. rewrite <- (slice_rd l (nd2 e) 0) by lia. cbn [skipn]. rewrite <- L. apply firstn_all.
Qed.
Lemma entity_rd s l x b : gd s p = Some l -> length l = nd2 e -> part_of_cell m p x ->
  entity_dofs2 e m s p x b = Ok (Some (rd l (slots x b))).
Proof.
  intros Hl Ll Px. pose proof (m_s _ _ _ M) as Iv. unfold entity_dofs2, slots. rewrite Hl.
  assert (N : nd2 e = 4 * dpv e + 4 * dpe D2 e + dpc D2 e) by reflexivity.
  destruct x as [v|h|q]; simpl in Px.
  - destruct Px as [k [h [Sd ->]]]. apply (is_side_iff _ _ _ _ Iv) in Sd. destruct Sd as [_ [Lk ->]]. rewrite (verts_idx _ _ _ M _ _ Hp Lk). do 2 f_equal. apply slice_rd. rewrite Ll. nia.
  - destruct Px as [k Sd]. apply (is_side_iff _ _ _ _ Iv) in Sd. destruct Sd as [_ [Lk ->]]. rewrite (sides_idx _ _ _ M _ _ Hp Lk), (verts_len _ _ _ M _ Hp).
    rewrite slice_rd by (rewrite Ll; nia). unfold slots_h. destruct b; [reflexivity|]. rewrite (end_dofs_rd l k Lk Ll). cbn [bind]. rewrite rd_app. reflexivity.
  - rewrite (verts_len _ _ _ M _ Hp), sides_len. unfold slots_c. destruct b; [rewrite slice_rd by (rewrite Ll; lia); reflexivity|rewrite rd_all by auto; reflexivity].
Qed.
Lemma slots_iff x b : part_of_cell m p x -> (e = DQ0 -> kind x = EHalfEdge -> b = true) ->
  forall k, In k (slots x b) <-> slot_on e m p x b k.
Proof.
  intros Px He k. pose proof (m_s _ _ _ M) as Iv. unfold slots, slot_on. destruct x as [v|h|q]; simpl in Px.
  - destruct Px as [i [h [Sd ->]]]. apply (is_side_iff _ _ _ _ Iv) in Sd. destruct Sd as [_ [Lk ->]]. rewrite (verts_idx _ _ _ M _ _ Hp Lk), slots_v_iff by auto. split.
    + intros [L E]. exists (node2 e k). split; [apply nodes2_nth; auto|]. exists i, (side m p i). split; [apply is_side_iff; auto|auto].
    + intros [y [N [i' [h [Sd [E P]]]]]]. destruct (nodes2_at _ _ _ N) as [L ->]. split; auto. apply (is_side_iff _ _ _ _ Iv) in Sd. destruct Sd as [_ [Li ->]].
      assert (i = i') by (apply (m_c _ _ _ M p); auto). subst i'. auto.
  - destruct Px as [i Sd]. apply (is_side_iff _ _ _ _ Iv) in Sd. destruct Sd as [_ [Lk ->]]. rewrite (sides_idx _ _ _ M _ _ Hp Lk), slots_h_iff by (auto; intros E; apply He; auto). split.
    + intros [L [t [E T]]]. exists (node2 e k). split; [apply nodes2_nth; auto|]. exists i, t. split; [apply is_side_iff; auto|auto].
    + intros [y [N [i' [t [Sd [E P]]]]]]. destruct (nodes2_at _ _ _ N) as [L ->]. split; auto. exists t. apply (is_side_iff _ _ _ _ Iv) in Sd. destruct Sd as [_ [Li Es]].
      destruct (QuadInv.side_inj Iv p p i i' Hp Hp Lk Li Es) as [_ <-]. auto.
  - subst q. rewrite slots_c_iff. split.
    + intros [L E]. exists (node2 e k). split; [apply nodes2_nth; auto|]. auto.
    + intros [y [N [_ P]]]. destruct (nodes2_at _ _ _ N) as [L ->]. auto.
Qed.
End one.

(** a filled cell: the dofs of an entity *)
Lemma entity_filled pts faces m e s p x b : minv pts faces m -> here m p -> filled (nd2 e) s p -> part_of_cell m p x ->
  (e = DQ0 -> kind x = EHalfEdge -> b = true) ->
  exists ds, entity_dofs2 e m s p x b = Ok (Some (map Some ds)) /\ length ds = length (slots m e p x b) /\ forall d, In d ds <-> exists k, slot_on e m p x b k /\ dof_at s p k d.
Proof.
  intros M Hp [l [Hl [Ll Fi]]] Px He. rewrite (entity_rd _ _ _ M e p Hp s l x b Hl Ll Px). pose proof (slots_iff _ _ _ M e p Hp x b Px He) as SI.
  assert (G : forall ks, (forall k, In k ks -> k < nd2 e) -> exists ds, rd l ks = map Some ds /\ length ds = length ks /\ forall d, In d ds <-> exists k, In k ks /\ dof_at s p k d).
  { induction ks as [|k ks IH]; intros B.
    - exists []. split; [reflexivity|]. split; [reflexivity|]. intros d. split; [intros []|intros [k [[] _]]].
    - destruct IH as [ds [E [EL I]]]; [intros; apply B; right; auto|]. destruct (Fi k (B k (or_introl eq_refl))) as [d [l' [El N]]]. assert (l' = l) by congruence. subst l'.
      exists (d :: ds). split; [cbn [rd map]; rewrite (nth_error_nth _ _ None N); f_equal; exact E|]. split; [cbn [length]; congruence|]. intros d'. split.
      + intros [<-|Id]; [exists k; split; [left; auto|exists l; auto]|]. apply I in Id. destruct Id as [k' [Ik D]]. exists k'. split; [right; auto|auto].
      + intros [k' [[<-|Ik] D]]; [|right; apply I; eauto]. destruct D as [l' [El' N']]. left. assert (l' = l) by congruence. subst l'. congruence. }
  destruct (G (slots m e p x b)) as [ds [E [EL I]]].
  { intros k Ik. apply SI in Ik. destruct Ik as [y [N _]]. apply nodes2_at in N. tauto. }
  exists ds. rewrite E. split; auto. split; auto. intros d. rewrite I. split; intros [k [A B]]; exists k; split; auto; apply SI; auto.
Qed.

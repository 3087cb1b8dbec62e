(** Neighbours in 1D meshes: C17, C18 *)
From Coq Require Import List Arith Bool Lia QArith Lqa.
Import ListNotations.
From Verif Require Import Tree Forest SpecForest TreeFacts ForestFacts LabelFacts RootFacts History PlaceFacts
  RefineFacts RefineFacts2 Geom GenFacts SpecGeom IntervalFacts LeafFacts Mesh1D.
Open Scope Q_scope.

Lemma tiles_nth a b l : tiles a b l -> forall i d, nth_error l i = Some d -> a <= fst d /\ fst d < snd d /\ snd d <= b.
Proof.
  assert (G : forall l a, tiles a b l -> a <= b).
  { induction l0 as [|d l0 IH]; intros a0 H; simpl in H; [lra|]. destruct H as [H1 [H2 H3]]. specialize (IH _ H3). lra. }
  revert a. induction l as [|d l IH]; intros a H i e E; [destruct i; discriminate|].
  destruct H as [H1 [H2 H3]]. pose proof (G _ _ H3). destruct i as [|i].
  - injection E as <-. lra.
  - destruct (IH _ H3 i e E) as [? [? ?]]. lra.
Qed.
Lemma tiles_joint a b l : tiles a b l -> forall i d e, nth_error l i = Some d -> nth_error l (S i) = Some e -> snd d == fst e.
Proof.
  revert a. induction l as [|x l IH]; intros a H i d e E1 E2; [destruct i; discriminate|].
  destruct H as [H1 [H2 H3]]. destruct i as [|i].
  - injection E1 as <-. simpl in E2. destruct l as [|y l]; [discriminate|]. injection E2 as <-. simpl in H3. symmetry. tauto.
  - eapply IH; eauto.
Qed.
Lemma tiles_first a b l d : tiles a b l -> nth_error l 0 = Some d -> fst d == a.
Proof. destruct l; simpl; [discriminate|]. intros [H _] E. injection E as <-. auto. Qed.
Lemma tiles_last a b l : tiles a b l -> forall i d, nth_error l i = Some d -> S i = length l -> snd d == b.
Proof.
  revert a. induction l as [|x l IH]; intros a H i d E L; [discriminate|]. destruct H as [_ [_ H]]. destruct i as [|i].
  - injection E as <-. destruct l; [exact H|discriminate].
  - eapply IH; eauto.
Qed.

Lemma go_down_eq {A} pick sf p m (d : A) ks : go_down pick sf p (Node m d ks) =
  if has_children (Node m d ks) sf then
    match nth_error ks (pick (length ks)) with
    | None => Err AssertionError
    | Some None => Err AttributeError
    | Some (Some k) => go_down pick sf (p ++ [pick (length ks)]) k
    end
  else Ok p.
Proof.
  cbn [go_down]. destruct (has_children _ sf); auto.
  set (P := p ++ [pick (length ks)]). generalize (pick (length ks)) as j. clearbody P. induction ks as [|[k|] ks IH]; intro j; destruct j; auto.
  - cbn [nth_error]. apply IH.
  - cbn [nth_error]. apply IH.
Qed.

Section Nbr.
Context (f : forest itv) (sf : option flag) (a b : Q).
Hypothesis HG : fgen ikid f.
Hypothesis HR : submesh_rooted f sf.
Hypothesis HT : tiles a b (map n_data f).

Lemma cell_bounds p n : fget f p = Some n -> a <= fst (n_data n) /\ fst (n_data n) < snd (n_data n) /\ snd (n_data n) <= b.
Proof.
  intro E. destruct p as [|i r]; [discriminate|]. simpl in E. destruct (nth_error f i) as [t|] eqn:Et; [|discriminate].
  assert (B : a <= fst (n_data t) /\ fst (n_data t) < snd (n_data t) /\ snd (n_data t) <= b).
  { eapply (tiles_nth a b _ HT i). rewrite nth_error_map, Et. auto. }
  specialize (HG i t Et). revert t HG B E Et. clear. intros t G B E _. revert t G B E.
  induction r as [|j r IH]; intros t G B E; simpl in E; [injection E as <-; auto|].
  destruct (nth_error (n_slots t) j) as [[k|]|] eqn:Ei; try discriminate.
  apply Gen_inv in G. destruct G as [_ [_ G]]. destruct (G j k Ei) as [D [_ Gk]]. apply (IH k); auto.
  assert (Hi : (j < n_children t)%nat) by (apply nth_error_Some; congruence).
  rewrite D. pose proof (ikid_pos (n_data t) (n_children t) j Hi ltac:(lra)).
  destruct (ikid_knots (n_data t) (n_children t) j Hi) as [K1 K2].
  destruct (knot_mono (n_data t) (n_children t) j) as [M1 M2]; [lia|lia|lra|].
  destruct (knot_mono (n_data t) (n_children t) (j + 1)) as [M3 M4]; [lia|lia|lra|]. lra.
Qed.

Lemma go_down_first : forall n p, fget f p = Some n -> fl_ok sf n ->
  exists q c, go_down pick_first sf p n = Ok q /\ fget f q = Some c /\ is_leaf_of sf c /\ fst (n_data c) = fst (n_data n).
Proof.
  induction n as [m d ks IH] using node_ind'. intros p E F. rewrite go_down_eq.
  destruct (has_children (Node m d ks) sf) eqn:Hc.
  - destruct (@sub_family itv ikid f sf HG HR p _ E Hc) as [H0 H1]. unfold n_children in *; cbn [n_slots n_data] in *.
    destruct (H1 0%nat H0) as [k [Ek [Fk [Dk _]]]]. unfold pick_first. rewrite Ek.
    destruct (IH 0%nat k Ek (p ++ [0%nat])) as [q [c [Q1 [Q2 [Q3 Q4]]]]]; auto.
    { eapply fget_kid; eauto. }
    exists q, c. split; auto. split; auto. split; auto. rewrite Q4, Dk. apply ikid_first; auto.
  - exists p, (Node m d ks). split; auto. split; auto. split; auto. split; auto. rewrite has_children_false in Hc. auto.
Qed.
Lemma go_down_last : forall n p, fget f p = Some n -> fl_ok sf n ->
  exists q c, go_down pick_last sf p n = Ok q /\ fget f q = Some c /\ is_leaf_of sf c /\ snd (n_data c) = snd (n_data n).
Proof.
  induction n as [m d ks IH] using node_ind'. intros p E F. rewrite go_down_eq.
  destruct (has_children (Node m d ks) sf) eqn:Hc.
  - destruct (@sub_family itv ikid f sf HG HR p _ E Hc) as [H0 H1]. unfold n_children in *; cbn [n_slots n_data] in *.
    destruct (H1 (length ks - 1)%nat ltac:(lia)) as [k [Ek [Fk [Dk _]]]]. unfold pick_last. rewrite Ek.
    destruct (IH (length ks - 1)%nat k Ek (p ++ [(length ks - 1)%nat])) as [q [c [Q1 [Q2 [Q3 Q4]]]]]; auto.
    { eapply fget_kid; eauto. }
    exists q, c. split; auto. split; auto. split; auto. rewrite Q4, Dk. apply ikid_last; auto.
  - exists p, (Node m d ks). split; auto. split; auto. split; auto. split; auto. rewrite has_children_false in Hc. auto.
Qed.

Lemma removelast_snoc {X} (l : list X) x : removelast (l ++ [x]) = l.
Proof. rewrite removelast_app by discriminate. simpl. apply app_nil_r. Qed.
Lemma last_snoc {X} (l : list X) x d : last (l ++ [x]) d = x.
Proof. induction l as [|y l IH]; simpl; auto. destruct (l ++ [x]) eqn:E; [destruct l; discriminate|]. auto. Qed.
Lemma root_at i t : nth_error f i = Some t -> fget f [i] = Some t.
Proof. intro E. simpl. rewrite E. auto. Qed.
Lemma root_fl i t : nth_error f i = Some t -> fl_ok sf t.
Proof.
  intros Et. destruct sf as [s|]; [|exact I]. destruct HR as [H1 _]. specialize (H1 i).
  unfold present, marked_at in H1. simpl in H1. rewrite Et in H1. exact (H1 eq_refl).
Qed.
Lemma sibling_fl (p : path) (x : node itv) (i j : nat) (k c : node itv) : fget f p = Some x ->
  nth_error (n_slots x) i = Some (Some k) -> nth_error (n_slots x) j = Some (Some c) -> fl_ok sf k -> fl_ok sf c.
Proof.
  intros Ex Ei Ej F. destruct sf as [s|]; [|exact I]. destruct HR as [_ [_ HS]].
  assert (Hp : p <> []) by (intros ->; discriminate).
  pose proof (fget_kid f p x i k Ex Ei) as E1. pose proof (fget_kid f p x j c Ex Ej) as E2.
  specialize (HS p i j Hp). unfold marked_at, present in HS. rewrite E1, E2 in HS. apply HS; auto.
Qed.
Lemma parent_of p i n : p <> [] -> fget f (p ++ [i]) = Some n -> exists x, fget f p = Some x /\ nth_error (n_slots x) i = Some (Some n).
Proof.
  intros Hp E. rewrite fget_snoc in E by auto. destruct (fget f p) as [x|]; [|discriminate]. exists x. split; auto.
  destruct (nth_error (n_slots x) i) as [[k|]|]; try discriminate. congruence.
Qed.
Lemma parent_fl p i n x : fget f p = Some x -> fget f (p ++ [i]) = Some n -> fl_ok sf n -> fl_ok sf x.
Proof.
  intros Ex En F. destruct sf as [s|]; [|exact I]. destruct HR as [_ [HU _]].
  assert (Hp : p <> []) by (intros ->; discriminate).
  specialize (HU p i [] Hp). unfold marked_at in HU. rewrite En, Ex in HU. apply HU; auto.
Qed.
Lemma family_member x p i k j : fget f p = Some x -> nth_error (n_slots x) i = Some (Some k) -> (j < n_children x)%nat ->
  exists c, nth_error (n_slots x) j = Some (Some c) /\ n_data c = ikid j (n_children x) (n_data x).
Proof.
  intros E Ei Hj. pose proof (fgen_fget p HG E) as G. apply Gen_inv in G. destruct G as [_ [G2 G3]].
  destruct (nth_error (n_slots x) j) as [[c|]|] eqn:Ej.
  - exists c. split; auto. apply (G3 j c Ej).
  - exfalso. eapply G2; eauto.
  - apply nth_error_None in Ej. unfold n_children in Hj. lia.
Qed.

Lemma up_next pair : forall p n, fget f p = Some n -> fl_ok sf n ->
  (exists q c, go_up (next_of f) pair (length p) p = Some q /\ fget f q = Some c /\ fl_ok sf c /\
      fst (n_data c) == snd (n_data n)) \/
  (go_up (next_of f) pair (length p) p = pair /\ snd (n_data n) == b).
Proof.
  intro p. induction p as [|i p IH] using rev_ind; intros n E F; [discriminate|].
  rewrite app_length, Nat.add_comm. cbn [go_up length Nat.add]. unfold next_of, n_siblings, sibling.
  rewrite removelast_snoc, last_snoc.
  destruct p as [|j p].
  - simpl in E |- *. destruct (nth_error f i) as [t|] eqn:Et; [|discriminate]. injection E as <-.
    destruct (Nat.leb_spec (S (S i)) (length f)) as [L|L]; destruct (Nat.ltb_spec (S i) (length f)) as [L'|L']; try lia.
    + left. destruct (nth_error f (S i)) as [u|] eqn:Eu.
      * exists [S i], u. split; auto. split; [apply root_at; auto|]. split; [eapply root_fl; eauto|].
        symmetry. apply (tiles_joint a b _ HT i); rewrite nth_error_map; [rewrite Et|rewrite Eu]; auto.
      * apply nth_error_None in Eu. lia.
    + right. split; auto. apply (tiles_last a b _ HT i); [rewrite nth_error_map, Et; auto|rewrite map_length].
      assert (i < length f)%nat by (apply nth_error_Some; congruence). lia.
  - set (P := j :: p) in *. assert (HP : P <> []) by discriminate.
    destruct (parent_of P i n HP E) as [x [Ex Ei]].
    assert (Li : (i < n_children x)%nat) by (apply nth_error_Some; congruence).
    pose proof (fgen_fget P HG Ex) as G. apply Gen_inv in G. destruct G as [_ [_ G3]]. destruct (G3 i n Ei) as [D _].
    change (match P with [] => length f | _ :: _ => match fget f P with Some n0 => n_children n0 | None => 0%nat end end)
      with (match fget f P with Some n0 => n_children n0 | None => 0%nat end).
    rewrite Ex.
    destruct (Nat.ltb_spec (S i) (n_children x)) as [L|L].
    + left. destruct (family_member x P i n (S i) Ex Ei L) as [c [Ec Dc]].
      exists (P ++ [S i]), c. split; auto. split; [eapply fget_kid; eauto|]. split; [eapply (sibling_fl P x i (S i)); eauto|].
      rewrite Dc, D, ikid_joint by auto. reflexivity.
    + assert (Fx : fl_ok sf x) by (eapply parent_fl; eauto).
      assert (Es : snd (n_data n) = snd (n_data x)).
      { rewrite D. replace i with (n_children x - 1)%nat by lia. apply ikid_last. lia. }
      destruct (IH x Ex Fx) as [[q [c [Q1 [Q2 [Q3 Q4]]]]]|[Q1 Q2]].
      * left. exists q, c. rewrite Es. unfold P in *. auto.
      * right. rewrite Es. unfold P in *. auto.
Qed.
Lemma up_prev pair : forall p n, fget f p = Some n -> fl_ok sf n ->
  (exists q c, go_up (previous_of f) pair (length p) p = Some q /\ fget f q = Some c /\ fl_ok sf c /\
      snd (n_data c) == fst (n_data n)) \/
  (go_up (previous_of f) pair (length p) p = pair /\ fst (n_data n) == a).
Proof.
  intro p. induction p as [|i p IH] using rev_ind; intros n E F; [discriminate|].
  rewrite app_length, Nat.add_comm. cbn [go_up length Nat.add]. unfold previous_of, sibling.
  rewrite removelast_snoc, last_snoc.
  destruct p as [|j p].
  - simpl in E |- *. destruct (nth_error f i) as [t|] eqn:Et; [|discriminate]. injection E as <-.
    destruct i as [|i].
    + right. split; auto. apply (tiles_first a b (map n_data f)); auto. rewrite nth_error_map, Et. auto.
    + left. destruct (nth_error f i) as [u|] eqn:Eu.
      * exists [i], u. split; auto. split; [apply root_at; auto|]. split; [eapply root_fl; eauto|].
        apply (tiles_joint a b _ HT i); rewrite nth_error_map; [rewrite Eu|rewrite Et]; auto.
      * apply nth_error_None in Eu. assert (S i < length f)%nat by (apply nth_error_Some; congruence). lia.
  - set (P := j :: p) in *. assert (HP : P <> []) by discriminate.
    destruct (parent_of P i n HP E) as [x [Ex Ei]].
    assert (Li : (i < n_children x)%nat) by (apply nth_error_Some; congruence).
    pose proof (fgen_fget P HG Ex) as G. apply Gen_inv in G. destruct G as [_ [_ G3]]. destruct (G3 i n Ei) as [D _].
    destruct i as [|i].
    + assert (Fx : fl_ok sf x) by (eapply parent_fl; eauto).
      assert (Es : fst (n_data n) = fst (n_data x)) by (rewrite D; apply ikid_first; lia).
      destruct (IH x Ex Fx) as [[q [c [Q1 [Q2 [Q3 Q4]]]]]|[Q1 Q2]].
      * left. exists q, c. rewrite Es. unfold P in *. auto.
      * right. rewrite Es. unfold P in *. auto.
    + left. destruct (family_member x P (S i) n i Ex Ei ltac:(lia)) as [c [Ec Dc]].
      exists (P ++ [i]), c. split; auto. split; [eapply fget_kid; eauto|]. split; [eapply (sibling_fl P x (S i) i); eauto|].
      rewrite Dc, D, ikid_joint by auto. reflexivity.
Qed.

Lemma phys_right periodic p n : fget f p = Some n -> fl_ok sf n ->
  (~ snd (n_data n) == b /\ exists q c, neighbor_phys periodic f sf 1 p = Ok (Some q) /\ fget f q = Some c /\ is_leaf_of sf c /\
      fst (n_data c) == snd (n_data n)) \/
  (snd (n_data n) == b /\
   (periodic = false -> neighbor_phys periodic f sf 1 p = Ok None) /\
   (periodic = true -> exists q c, neighbor_phys periodic f sf 1 p = Ok (Some q) /\ fget f q = Some c /\ is_leaf_of sf c /\
      fst (n_data c) == a)).
Proof.
  intros E F. unfold neighbor_phys. cbn [Nat.eqb].
  destruct (up_next (if periodic then Some [0%nat] else None) p n E F) as [[q [c [Q1 [Q2 [Q3 Q4]]]]]|[Q1 Q2]].
  - left. split.
    + destruct (cell_bounds q c Q2) as [_ [B1 B2]]. lra.
    + rewrite Q1, Q2. destruct (go_down_first c q Q2 Q3) as [r [e [R1 [R2 [R3 R4]]]]]. rewrite R1. cbn [bind].
      exists r, e. split; auto. split; auto. split; auto. rewrite R4; auto.
  - right. split; auto. rewrite Q1. split; intro Hp; rewrite Hp; auto.
    destruct p as [|i p]; [discriminate|]. simpl in E. destruct (nth_error f i) as [t|] eqn:Et; [|discriminate].
    destruct (nth_error f 0) as [u|] eqn:Eu; [|destruct f; [destruct i; discriminate|discriminate]].
    rewrite (root_at 0 u Eu). destruct (go_down_first u [0%nat] (root_at 0 u Eu) (root_fl 0 u Eu)) as [r [e [R1 [R2 [R3 R4]]]]].
    rewrite R1. cbn [bind]. exists r, e. split; auto. split; auto. split; auto. rewrite R4.
    apply (tiles_first a b (map n_data f)); auto. rewrite nth_error_map, Eu. auto.
Qed.
Lemma phys_left periodic p n : fget f p = Some n -> fl_ok sf n ->
  (~ fst (n_data n) == a /\ exists q c, neighbor_phys periodic f sf 0 p = Ok (Some q) /\ fget f q = Some c /\ is_leaf_of sf c /\
      snd (n_data c) == fst (n_data n)) \/
  (fst (n_data n) == a /\
   (periodic = false -> neighbor_phys periodic f sf 0 p = Ok None) /\
   (periodic = true -> exists q c, neighbor_phys periodic f sf 0 p = Ok (Some q) /\ fget f q = Some c /\ is_leaf_of sf c /\
      snd (n_data c) == b)).
Proof.
  intros E F. unfold neighbor_phys. cbn [Nat.eqb].
  destruct (up_prev (if periodic then Some [(length f - 1)%nat] else None) p n E F) as [[q [c [Q1 [Q2 [Q3 Q4]]]]]|[Q1 Q2]].
  - left. split.
    + destruct (cell_bounds q c Q2) as [B0 [B1 B2]]. lra.
    + rewrite Q1, Q2. destruct (go_down_last c q Q2 Q3) as [r [e [R1 [R2 [R3 R4]]]]]. rewrite R1. cbn [bind].
      exists r, e. split; auto. split; auto. split; auto. rewrite R4; auto.
  - right. split; auto. rewrite Q1. split; intro Hp; rewrite Hp; auto.
    destruct p as [|i p]; [discriminate|]. simpl in E. destruct (nth_error f i) as [t|] eqn:Et; [|discriminate].
    assert (Li : (i < length f)%nat) by (apply nth_error_Some; congruence).
    destruct (nth_error f (length f - 1)) as [u|] eqn:Eu; [|apply nth_error_None in Eu; lia].
    rewrite (root_at _ u Eu). destruct (go_down_last u [(length f - 1)%nat] (root_at _ u Eu) (root_fl _ u Eu)) as [r [e [R1 [R2 [R3 R4]]]]].
    rewrite R1. cbn [bind]. exists r, e. split; auto. split; auto. split; auto. rewrite R4.
    apply (tiles_last a b (map n_data f) HT (length f - 1)); [rewrite nth_error_map, Eu; auto|rewrite map_length; lia].
Qed.
End Nbr.

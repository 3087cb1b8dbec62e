(** Interval geometry (C16, C21, C22) *)
From Coq Require Import List Arith Bool QArith Lia Lqa.
Import ListNotations.
From Verif Require Import Tree Forest SpecForest TreeFacts ForestFacts LabelFacts RootFacts History PlaceFacts RefineFacts
  RefineFacts2 Geom SpecGeom GenFacts.
Open Scope Q_scope.

Lemma Qn_S n : Qn (S n) == Qn n + 1.
Proof. unfold Qn. rewrite Nat2Z.inj_succ, <- Z.add_1_r, inject_Z_plus. reflexivity. Qed.
Lemma Qn_pos n : (0 < n)%nat -> 0 < Qn n.
Proof. intro H. unfold Qn. rewrite <- (Zlt_Qlt 0). lia. Qed.
Lemma Qn_nonneg n : 0 <= Qn n.
Proof. unfold Qn. rewrite <- (Zle_Qle 0). lia. Qed.
Lemma Qn_neq n : (0 < n)%nat -> ~ Qn n == 0.
Proof. intros H E. pose proof (Qn_pos n H). lra. Qed.
Lemma Qltb_lt a b : Qltb a b = true <-> a < b.
Proof.
  unfold Qltb. rewrite negb_true_iff. split; intro H.
  - apply Qnot_le_lt. intro L. apply Qle_bool_iff in L. congruence.
  - destruct (Qle_bool b a) eqn:E; auto. apply Qle_bool_iff in E. exfalso. apply (Qlt_not_le _ _ H); auto.
Qed.
Lemma Qltb_ge a b : Qltb a b = false <-> b <= a.
Proof. unfold Qltb. rewrite negb_false_iff. apply Qle_bool_iff. Qed.

Definition knot (d : itv) (n i : nat) : Q := fst d + Qn i * (snd d - fst d) / Qn n.
Lemma knot_0 d n : (0 < n)%nat -> knot d n 0 == fst d.
Proof. intro H. unfold knot, Qn at 1. simpl inject_Z. field. apply Qn_neq; auto. Qed.
Lemma knot_n d n : (0 < n)%nat -> knot d n n == snd d.
Proof. intro H. unfold knot. field. apply Qn_neq; auto. Qed.
Lemma knot_S d n i : (0 < n)%nat -> knot d n (S i) == knot d n i + (snd d - fst d) / Qn n.
Proof. intro H. unfold knot. rewrite Qn_S. field. apply Qn_neq; auto. Qed.

Lemma isplit_loop_length x0 x1 n i k b : length (isplit_loop x0 x1 n i k b) = k.
Proof. revert i b; induction k; intros; simpl; auto. Qed.
Lemma isplit_loop_nth d n k : forall i b j e, (i + k = n)%nat -> b == knot d n i -> (j < k)%nat ->
  let c := nth j (isplit_loop (fst d) (snd d) n i k b) e in
  fst c == knot d n (i + j) /\ snd c == knot d n (i + j + 1).
Proof.
  induction k as [|k IH]; intros i b j e E Hb Hj; [lia|].
  assert (Hn : (0 < n)%nat) by lia.
  assert (Hh : (if Nat.eqb i (n - 1) then snd d else fst d + Qn (i + 1) * (snd d - fst d) / Qn n) == knot d n (i + 1)).
  { destruct (Nat.eqb_spec i (n - 1)) as [->|Ne]; [|reflexivity].
    replace (n - 1 + 1)%nat with n by lia. symmetry. apply knot_n; auto. }
  destruct j as [|j]; cbn [isplit_loop nth fst snd].
  - rewrite Nat.add_0_r. split; auto.
  - replace (i + S j)%nat with (S i + j)%nat by lia. apply IH; [lia| |lia].
    rewrite Hh. replace (i + 1)%nat with (S i) by lia. reflexivity.
Qed.
Lemma ikid_knots d n i : (i < n)%nat -> fst (ikid i n d) == knot d n i /\ snd (ikid i n d) == knot d n (i + 1).
Proof.
  intro H. unfold ikid, isplit. apply (isplit_loop_nth d n n 0 (fst d) i d); auto.
  symmetry. apply knot_0. lia.
Qed.
Lemma ikid_first d n : (0 < n)%nat -> fst (ikid 0 n d) = fst d.
Proof. intro H. destruct n; [lia|]. reflexivity. Qed.
Lemma isplit_loop_last x0 x1 n k : forall i b e, (i + S k = n)%nat ->
  snd (nth k (isplit_loop x0 x1 n i (S k) b) e) = x1.
Proof.
  induction k as [|k IH]; intros i b e E; cbn [isplit_loop nth].
  - replace (Nat.eqb i (n - 1)) with true by (symmetry; apply Nat.eqb_eq; lia). reflexivity.
  - apply IH. lia.
Qed.
Lemma ikid_last d n : (0 < n)%nat -> snd (ikid (n - 1) n d) = snd d.
Proof.
  intro H. unfold ikid, isplit. destruct n as [|n]; [lia|]. replace (S n - 1)%nat with n by lia.
  apply isplit_loop_last. lia.
Qed.
Lemma isplit_loop_joint x0 x1 n k : forall i b j e, (S j < k)%nat ->
  fst (nth (S j) (isplit_loop x0 x1 n i k b) e) = snd (nth j (isplit_loop x0 x1 n i k b) e).
Proof.
  induction k as [|k IH]; intros i b j e H; [lia|].
  destruct j as [|j].
  - cbn [isplit_loop nth]. destruct k; [lia|]. reflexivity.
  - cbn [isplit_loop]. change (nth (S (S j)) (?a :: ?l) e) with (nth (S j) l e).
    cbn [nth]. apply IH. lia.
Qed.
Lemma ikid_joint d n i : (S i < n)%nat -> fst (ikid (S i) n d) = snd (ikid i n d).
Proof. intro H. unfold ikid, isplit. apply isplit_loop_joint; auto. Qed.
Lemma ikid_width d n i : (i < n)%nat -> snd (ikid i n d) - fst (ikid i n d) == (snd d - fst d) / Qn n.
Proof.
  intro H. destruct (ikid_knots d n i H) as [E1 E2]. rewrite E1, E2.
  replace (i + 1)%nat with (S i) by lia. rewrite knot_S by lia. ring.
Qed.
Lemma ikid_pos d n i : (i < n)%nat -> fst d < snd d -> fst (ikid i n d) < snd (ikid i n d).
Proof.
  intros H P. pose proof (ikid_width d n i H) as W.
  assert (0 < (snd d - fst d) / Qn n).
  { apply Qlt_shift_div_l; [apply Qn_pos; lia|]. lra. }
  lra.
Qed.
Lemma knot_mono d n i : (i <= n)%nat -> (0 < n)%nat -> fst d <= snd d -> fst d <= knot d n i /\ knot d n i <= snd d.
Proof.
  intros H Hn P. pose proof (Qn_pos n Hn) as Pn. unfold knot.
  assert (A1 : 0 <= Qn i * (snd d - fst d) / Qn n).
  { apply Qle_shift_div_l; auto. pose proof (Qn_nonneg i). nra. }
  assert (A2 : Qn i * (snd d - fst d) / Qn n <= snd d - fst d).
  { apply Qle_shift_div_r; auto.
    assert (Qn i <= Qn n) by (unfold Qn; rewrite <- Zle_Qle; lia). nra. }
  lra.
Qed.

Lemma tiles_compat l : forall a a' b b', a == a' -> b == b' -> tiles a b l -> tiles a' b' l.
Proof.
  induction l as [|d l IH]; intros a a' b b' Ea Eb; simpl.
  - intro H. rewrite <- Ea, <- Eb; auto.
  - intros [H1 [H2 H3]]. split; [rewrite <- Ea; auto|]. split; auto. eapply IH; [reflexivity|exact Eb|auto].
Qed.
Lemma tiles_app l1 l2 a b c : tiles a b l1 -> tiles b c l2 -> tiles a c (l1 ++ l2).
Proof.
  revert a. induction l1 as [|d l IH]; intros a H1 H2; simpl in *.
  - eapply tiles_compat; [symmetry; exact H1|reflexivity|auto].
  - destruct H1 as [E [P H1]]. auto.
Qed.

Definition leaves_of {A} (sf : option flag) (p : path) (n : node A) : list (path * node A) :=
  filter (fun c => negb (has_children (snd c) sf)) (keep sf (preorder p n)).
Lemma keep_flat_map {A X} sf (g : X -> list (path * node A)) l :
  keep sf (flat_map g l) = flat_map (fun x => keep sf (g x)) l.
Proof.
  induction l as [|x l IH]; simpl; [destruct sf; reflexivity|]. rewrite keep_app, IH. reflexivity.
Qed.
Lemma filter_flat_map {X Y} (h : Y -> bool) (g : X -> list Y) l :
  filter h (flat_map g l) = flat_map (fun x => filter h (g x)) l.
Proof. induction l as [|x l IH]; simpl; auto. rewrite filter_app, IH. reflexivity. Qed.
Lemma fl_ok_dec {A} sf (n : node A) : {fl_ok sf n} + {~ fl_ok sf n}.
Proof. destruct sf as [s|]; unfold fl_ok; [destruct (is_marked n (Some s)) eqn:E; [left|right]; congruence|left; exact I]. Qed.
Lemma leaves_of_eq {A} sf p (n : node A) : fl_ok sf n ->
  leaves_of sf p n = (if has_children n sf then [] else [(p, n)]) ++
                     flat_map (fun c => leaves_of sf (fst c) (snd c)) (kids_of p n).
Proof.
  intro F. unfold leaves_of. rewrite preorder_eq.
  change ((p, n) :: ?l) with ([(p, n)] ++ l) at 1. rewrite keep_app, filter_app.
  f_equal.
  - unfold keep. destruct sf as [s|]; simpl in *; [rewrite F; simpl|]; destruct (has_children _ _); reflexivity.
  - rewrite keep_flat_map, filter_flat_map. reflexivity.
Qed.

Section Tile.
Context (f : forest itv) (sf : option flag).
Hypothesis HG : fgen ikid f.
Hypothesis HR : submesh_rooted f sf.

Lemma leaves_of_empty p (n : node itv) : (forall r c, nget n r = Some c -> ~ fl_ok sf c) -> leaves_of sf p n = [].
Proof.
  intro H. unfold leaves_of.
  destruct (filter _ _) as [|[q c] l] eqn:E; auto. exfalso.
  assert (Hi : In (q, c) ((q, c) :: l)) by (left; auto). rewrite <- E in Hi. apply filter_In in Hi. destruct Hi as [Hi _].
  apply keep_in in Hi. destruct Hi as [Hi Hk]. apply in_preorder in Hi. destruct Hi as [r [_ Er]].
  apply (H r c Er). exact Hk.
Qed.
Lemma leaf_of_tile : forall n p, p <> [] -> fget f p = Some n -> fl_ok sf n -> fst (n_data n) < snd (n_data n) ->
  tiles (fst (n_data n)) (snd (n_data n)) (map (fun c => n_data (snd c)) (leaves_of sf p n)).
Proof.
  induction n as [m d ks IH] using node_ind'. intros p Hp E F P.
  set (n := Node m d ks) in *.
  rewrite leaves_of_eq by auto.
  assert (Hkid : forall i k, nth_error ks i = Some (Some k) -> fget f (p ++ [i]) = Some k).
  { intros i k Ei. rewrite fget_snoc by auto. rewrite E. unfold n; cbn [n_slots]. rewrite Ei; auto. }
  destruct (has_children n sf) eqn:Hc.
  - simpl app.
    pose proof (fgen_fget p HG E) as G. apply Gen_inv in G. destruct G as [_ [G2 G3]].
    apply has_children_fl in Hc. destruct Hc as [i0 [k0 [Ei0 F0]]].
    assert (Hall : forall j, (j < length ks)%nat -> exists k, nth_error ks j = Some (Some k) /\ fl_ok sf k).
    { intros j Hj. destruct (nth_error ks j) as [[k|]|] eqn:Ej.
      - exists k. split; auto. destruct sf as [s|]; [|exact I]. destruct HR as [_ [_ HS]].
        specialize (HS p i0 j Hp). unfold marked_at in HS. rewrite (Hkid i0 k0 Ei0), (Hkid j k Ej) in HS.
        apply HS; auto. unfold present. rewrite (Hkid j k Ej); auto.
      - exfalso. eapply (G2 i0 j k0); eauto.
      - apply nth_error_None in Ej. lia. }
    assert (Hn : (0 < length ks)%nat).
    { unfold n in Ei0; cbn [n_slots] in Ei0. assert (i0 < length ks)%nat by (apply nth_error_Some; congruence). lia. }
    unfold kids_of. unfold n at 3; cbn [n_slots].
    assert (T : forall l j, (forall i, nth_error l i = nth_error ks (j + i)) -> (j + length l = length ks)%nat ->
       tiles (knot d (length ks) j) (snd d)
         (map (fun c => n_data (snd c)) (flat_map (fun c => leaves_of sf (fst c) (snd c))
            (map (fun ik => (p ++ [fst ik], snd ik)) (enum_kids j l))))).
    { induction l as [|o l IHl]; intros j Hl Ej.
      - simpl. simpl in Ej. replace j with (length ks) by lia. apply knot_n; auto.
      - assert (E0 : nth_error ks j = Some o) by (specialize (Hl 0%nat); simpl in Hl; rewrite Nat.add_0_r in Hl; auto).
        destruct (Hall j) as [k [Ek Fk]]; [simpl in Ej; lia|]. rewrite E0 in Ek. injection Ek as ->.
        cbn [enum_kids map flat_map fst snd]. rewrite map_app.
        destruct (G3 j k E0) as [D1 _]. unfold n, n_children in D1; cbn [n_slots n_data] in D1.
        destruct (ikid_knots d (length ks) j) as [K1 K2]; [simpl in Ej; lia|].
        apply tiles_app with (knot d (length ks) (S j)).
        + eapply tiles_compat; [| |apply (IH j k E0); auto].
          * rewrite D1. exact K1.
          * rewrite D1. rewrite K2. replace (j + 1)%nat with (S j) by lia. reflexivity.
          * intro Z. destruct p; discriminate.
          * rewrite D1. apply ikid_pos; [simpl in Ej; lia|auto].
        + apply IHl; [|simpl in Ej; lia]. intro i. specialize (Hl (S i)). simpl in Hl. rewrite Hl. f_equal. lia. }
    unfold n; cbn [n_data]. eapply tiles_compat; [apply knot_0; exact Hn|reflexivity|apply (T ks 0%nat); auto].
  - replace (flat_map _ (kids_of p n)) with (@nil (path * node itv)).
    + simpl. split; [reflexivity|]. split; auto. reflexivity.
    + symmetry. rewrite has_children_false in Hc.
      assert (Z : forall c, In c (kids_of p n) -> leaves_of sf (fst c) (snd c) = []).
      { intros [q k] Hk. apply in_kids_of in Hk. destruct Hk as [i [-> Ei]]. cbn [fst snd].
        apply leaves_of_empty. intros r c Er Fc.
        destruct (@rooted_inner itv f sf p i r n c) as [_ [k' [Ek' Fk']]]; auto.
        - replace (p ++ i :: r) with ((p ++ [i]) ++ r) by (rewrite <- app_assoc; auto).
          destruct p as [|a p]; [congruence|]. pose proof (Hkid i k Ei) as HK. change ((a :: p) ++ [i]) with (a :: (p ++ [i])) in *.
          rewrite fget_app, HK. auto.
        - eapply Hc; eauto. }
      induction (kids_of p n) as [|c l IHl]; simpl; auto. rewrite Z by (left; auto). apply IHl. intros; apply Z; right; auto.
Qed.
Lemma fget_leaves_dfs {A} (g : forest A) : fget_leaves g None sf DepthFirst =
  flat_map (fun c => leaves_of sf (fst c) (snd c)) (roots g).
Proof.
  unfold fget_leaves. rewrite ftraverse_dfs, keep_flat_map, filter_flat_map. reflexivity.
Qed.
Lemma forest_leaves_tile a b : tiles a b (map n_data f) ->
  tiles a b (map (fun c => n_data (snd c)) (fget_leaves f None sf DepthFirst)).
Proof.
  intro T. rewrite fget_leaves_dfs. unfold roots.
  assert (G : forall l j a, (forall i, nth_error l i = nth_error f (j + i)) -> tiles a b (map n_data l) ->
    tiles a b (map (fun c => n_data (snd c)) (flat_map (fun c => leaves_of sf (fst c) (snd c))
       (map (fun ix => ([fst ix], snd ix)) (index_from j l))))).
  { induction l as [|t l IH]; intros j a' Hl Ta; simpl in *; auto.
    destruct Ta as [E [P Ta]]. rewrite map_app.
    assert (Et : nth_error f j = Some t) by (specialize (Hl 0%nat); simpl in Hl; rewrite Nat.add_0_r in Hl; auto).
    assert (Ef : fget f [j] = Some t) by (simpl; rewrite Et; auto).
    apply tiles_app with (snd (n_data t)).
    - eapply tiles_compat; [exact E|reflexivity|]. apply leaf_of_tile; auto; [discriminate|].
      destruct sf as [s|]; [|exact I]. destruct HR as [HR1 _]. specialize (HR1 j).
      unfold present, marked_at in HR1. rewrite Ef in HR1. exact (HR1 eq_refl).
    - apply IH; auto. intro i. specialize (Hl (S i)). simpl in Hl. rewrite Hl. f_equal. lia. }
  apply (G f 0%nat a); auto.
Qed.
End Tile.

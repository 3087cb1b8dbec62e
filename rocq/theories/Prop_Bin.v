(** * C16 (interval splitting tiles the domain) and C19 (bin_points) *)
From Coq Require Import List Arith Bool Lia Permutation QArith Lqa.
Import ListNotations.
From Verif Require Import Tree Forest SpecForest TreeFacts ForestFacts LabelFacts RootFacts History PlaceFacts
  RefineFacts RefineFacts2 Geom GenFacts SpecGeom IntervalFacts QuadGeomFacts BinFacts.
Open Scope Q_scope.

(** ** C16 *)
(** Interval.split makes [n] children; in order they tile the interval and all
    have the width of the interval divided by [n]; the endpoints are the same
    numbers, not only equal up to rounding. *)
Theorem C16_split_partitions (x0 x1 : Q) (n : nat) : (0 < n)%nat -> x0 < x1 ->
  length (isplit n (x0, x1)) = n /\
  tiles x0 x1 (isplit n (x0, x1)) /\
  (forall c, In c (isplit n (x0, x1)) -> snd c - fst c == (x1 - x0) / inject_Z (Z.of_nat n)) /\
  (exists l0 r0 l1 r1, nth_error (isplit n (x0, x1)) 0 = Some (l0, r0) /\ l0 = x0 /\
                       nth_error (isplit n (x0, x1)) (n - 1) = Some (l1, r1) /\ r1 = x1) /\
  (forall i c c', nth_error (isplit n (x0, x1)) i = Some c ->
                  nth_error (isplit n (x0, x1)) (S i) = Some c' -> snd c = fst c').
Proof.
  intros Hn Hx.
  assert (L : length (isplit n (x0, x1)) = n) by (unfold isplit; apply isplit_loop_length).
  assert (Nth : forall i, (i < n)%nat -> nth_error (isplit n (x0, x1)) i = Some (ikid i n (x0, x1))).
  { intros i Hi. unfold ikid. apply nth_error_nth'. lia. }
  split; auto. split; [|split; [|split]].
  - assert (G : forall k i l, (i + k = n)%nat -> length l = k ->
       (forall j, (j < k)%nat -> nth_error l j = Some (ikid (i + j) n (x0, x1))) -> tiles (knot (x0, x1) n i) x1 l).
    { induction k as [|k IH]; intros i l E El Hl.
      - destruct l; [|discriminate]. simpl. replace i with n by lia. apply (knot_n (x0, x1)); auto.
      - destruct l as [|c l]; [discriminate|]. cbn [tiles].
        pose proof (Hl 0%nat ltac:(lia)) as E0. simpl in E0. rewrite Nat.add_0_r in E0. injection E0 as ->.
        destruct (ikid_knots (x0, x1) n i ltac:(lia)) as [K1 K2].
        split; auto. split; [apply ikid_pos; auto; lia|].
        apply (tiles_compat l (knot (x0, x1) n (S i)) _ x1 x1); [|reflexivity|].
        + rewrite K2. replace (i + 1)%nat with (S i) by lia. reflexivity.
        + apply IH; [lia|simpl in El; lia|]. intros j Hj. specialize (Hl (S j) ltac:(lia)). simpl in Hl. rewrite Hl.
          do 2 f_equal. lia. }
    apply (tiles_compat _ (knot (x0, x1) n 0) _ x1 x1); [apply (knot_0 (x0, x1)); auto|reflexivity|].
    apply (G n 0%nat); auto.
  - intros c Hc. apply In_nth_error in Hc. destruct Hc as [i Hi].
    assert (i < n)%nat by (rewrite <- L; apply nth_error_Some; congruence).
    rewrite Nth in Hi by auto. injection Hi as <-. apply (ikid_width (x0, x1)); auto.
  - destruct (ikid 0 n (x0, x1)) as [l0 r0] eqn:E0. destruct (ikid (n - 1) n (x0, x1)) as [l1 r1] eqn:E1.
    exists l0, r0, l1, r1. rewrite !Nth by lia. rewrite E0, E1.
    pose proof (ikid_first (x0, x1) n Hn) as F0. pose proof (ikid_last (x0, x1) n Hn) as F1. rewrite E0 in F0. rewrite E1 in F1.
    simpl in F0, F1. auto.
  - intros i c c' H1 H2.
    assert (S i < n)%nat by (rewrite <- L; apply nth_error_Some; congruence).
    rewrite Nth in H1, H2 by lia. injection H1 as <-. injection H2 as <-. symmetry. apply ikid_joint; auto.
Qed.
Print Assumptions C16_split_partitions.
Example C16_split_case : isplit 3 (0, 1) = [(0, 0 + 1 * (1 - 0) / 3); (0 + 1 * (1 - 0) / 3, 0 + 2 * (1 - 0) / 3); (0 + 2 * (1 - 0) / 3, 1)].
Proof. reflexivity. Qed.

(** After any history of plain operations: if the root intervals tile [a,b], the
    leaves of every rooted submesh, in depth-first order, tile [a,b]. *)
Theorem C16_leaves_tile (l : list op) (f : forest itv) (sf : option flag) (a b : Q) :
  Forall plain l -> run ikid [] l = Ok f -> submesh_rooted f sf ->
  tiles a b (map n_data f) ->
  tiles a b (map (fun c => n_data (snd c)) (fget_leaves f None sf DepthFirst)).
Proof.
  intros P E R T. apply forest_leaves_tile; auto. eapply run_gen; eauto.
  intros i t H. destruct i; discriminate.
Qed.
Print Assumptions C16_leaves_tile.

(** a mesh of two intervals, the first cut in three and its middle part cut
    again; label 1 is a rooted submesh in between *)
Definition iv_ops : list (@op itv) :=
  [OAddTree 3 (0, 1); OAddTree 2 (1, 4); OSplit [0%nat]; ORecord 1%nat; OSplit [0; 1]%nat; OSplit [1%nat]].
Definition iv_f : forest itv := match run ikid [] iv_ops with Ok f => f | Err _ => [] end.
Lemma iv_run : run ikid [] iv_ops = Ok iv_f. Proof. vm_compute. reflexivity. Qed.
Lemma iv_plain : Forall plain iv_ops. Proof. repeat constructor. Qed.
Lemma iv_tiles : tiles 0 4 (map n_data iv_f). Proof. vm_compute. repeat split; reflexivity. Qed.
Lemma iv_rooted : rooted iv_f 1%nat. Proof. apply subtrees_rooted_iff. vm_compute. reflexivity. Qed.
Example C16_case :
  tiles 0 4 (map (fun c => n_data (snd c)) (fget_leaves iv_f None None DepthFirst)) /\
  length (fget_leaves iv_f None None DepthFirst) = 7%nat /\
  tiles 0 4 (map (fun c => n_data (snd c)) (fget_leaves iv_f None (Some 1%nat) DepthFirst)) /\
  length (fget_leaves iv_f None (Some 1%nat) DepthFirst) = 4%nat.
Proof.
  split; [apply (C16_leaves_tile iv_ops); auto using iv_plain, iv_run, iv_tiles; exact I|].
  split; [reflexivity|]. split; [|reflexivity].
  apply (C16_leaves_tile iv_ops); auto using iv_plain, iv_run, iv_tiles. exact iv_rooted.
Qed.

(** ** C19 *)
Lemma nodup_index_from {X} (l : list X) : forall j, NoDup (map fst (index_from j l)).
Proof.
  induction l as [|x l IH]; intro j; simpl; constructor; auto.
  intro H. apply in_map_iff in H. destruct H as [[i y] [E H]]. apply in_index_from in H. simpl in E. lia.
Qed.
Section BinMesh.
Context {A P : Type}.
Variable inside : A -> P -> bool.
Variable kid : nat -> nat -> A -> A.
Variable f : forest A.
Variable sf : option flag.
Hypothesis HG : fgen kid f.
Hypothesis HR : submesh_rooted f sf.
Hypothesis HK : forall p n x, fget f p = Some n -> (0 < n_children n)%nat -> inside (n_data n) x = true ->
  exists i, (i < n_children n)%nat /\ inside (kid i (n_children n) (n_data n)) x = true.

Lemma bin_cover p n x : fget f p = Some n -> fl_ok sf n -> has_children n sf = true -> inside (n_data n) x = true ->
  exists i k, nth_error (n_slots n) i = Some (Some k) /\ fl_ok sf k /\ inside (n_data k) x = true.
Proof.
  intros E F Hc Hx. apply has_children_fl in Hc. destruct Hc as [i0 [k0 [E0 F0]]].
  pose proof (fgen_fget p HG E) as G. apply Gen_inv in G. destruct G as [_ [G2 G3]].
  assert (L0 : (i0 < n_children n)%nat) by (apply nth_error_Some; congruence).
  destruct (HK p n x E ltac:(lia) Hx) as [i [Li Ii]].
  destruct (nth_error (n_slots n) i) as [[k|]|] eqn:Ei.
  - exists i, k. split; auto. destruct (G3 i k Ei) as [D _]. rewrite D. split; auto.
    destruct sf as [s|]; [|exact I]. destruct HR as [_ [_ HS]].
    assert (Hp : p <> []) by (intros ->; discriminate).
    assert (Ek : forall j c, nth_error (n_slots n) j = Some (Some c) -> fget f (p ++ [j]) = Some c).
    { intros j c Ej. destruct p as [|a p]; [congruence|]. rewrite fget_app, E. simpl. rewrite Ej. auto. }
    unfold fl_ok in F0 |- *. rewrite (@is_marked_at A f (p ++ [i]) k s (Ek _ _ Ei)).
    apply (HS p i0 i); auto.
    + rewrite <- (@is_marked_at A f (p ++ [i0]) k0 s (Ek _ _ E0)). auto.
    + unfold present. rewrite (Ek _ _ Ei). auto.
  - exfalso. eapply G2; eauto.
  - exfalso. apply nth_error_None in Ei. unfold n_children in Li. lia.
Qed.

Lemma bin_mesh (pts : list P) :
  ((exists x, In x pts /\ forall t, In t f -> inside (n_data t) x = false) /\
   mesh_bin_points inside sf f pts = Err AssertionError) \/
  ((forall x, In x pts -> exists t, In t f /\ inside (n_data t) x = true) /\
   exists b, mesh_bin_points inside sf f pts = Ok b /\
     Permutation (flat_map snd b) (seq 0 (length pts)) /\ NoDup (map fst b) /\
     forall q idx, In (q, idx) b -> idx <> [] /\ exists c, fget f q = Some c /\ is_leaf_of sf c /\
        forall j, In j idx -> exists x, nth_error pts j = Some x /\ inside (n_data c) x = true).
Proof.
  assert (Hr : forall i t, nth_error f i = Some t -> fl_ok sf t).
  { intros i t E. destruct sf as [s|]; [|exact I]. destruct HR as [H0 _].
    assert (Ef : fget f [i] = Some t) by (simpl; rewrite E; auto).
    unfold fl_ok. rewrite (@is_marked_at A f [i] t s Ef). apply H0. unfold present. rewrite Ef; auto. }
  assert (Hroots : forall q n, In (q, n) (roots f) <-> exists i, q = [i] /\ nth_error f i = Some n).
  { intros q n. unfold roots. rewrite in_map_iff. split.
    - intros [[i t] [E H]]. injection E as <- <-. exists i. split; auto.
      apply in_index_from in H. destruct H as [_ H]. rewrite Nat.sub_0_r in H. exact H.
    - intros [i [-> E]]. exists (i, n). split; auto. apply in_index_from. rewrite Nat.sub_0_r. split; [lia|auto]. }
  assert (Hc : exists rs, fget_children f sf false = Some rs /\ forall q n, In (q, n) rs <-> exists i, q = [i] /\ nth_error f i = Some n).
  { unfold fget_children. destruct sf as [s|].
    - eexists. split; [reflexivity|]. intros q n. rewrite filter_In, Hroots. cbn [snd]. split; [tauto|].
      intros H. split; auto. destruct H as [i [_ E]]. exact (Hr i n E).
    - eexists. split; [reflexivity|]. exact Hroots. }
  assert (Hnd : forall rs, fget_children f sf false = Some rs -> NoDup (map fst rs)).
  { assert (N : NoDup (map fst (roots f))).
    { unfold roots. rewrite map_map. cbn [fst].
      replace (map _ (index_from 0 f)) with (map (fun i : nat => [i]) (map fst (index_from 0 f))) by (rewrite map_map; reflexivity).
      apply FinFun.Injective_map_NoDup; [intros a b E; congruence|]. apply nodup_index_from. }

    intros rs. unfold fget_children. destruct sf as [s|]; intro E; injection E as <-; auto.
    clear - N. induction (roots f) as [|c l IH]; simpl in *; auto. inversion N; subst.
    destruct (mem_flag s _); simpl; auto. constructor; auto.
    intro H. apply H1. apply in_map_iff in H. destruct H as [d [E H]]. apply filter_In in H. apply in_map_iff. exists d. tauto. }
  destruct Hc as [rs [Ec Hrs]]. specialize (Hnd rs Ec).
  unfold mesh_bin_points. rewrite Ec.
  destruct (@mesh_bin_ok A P inside sf f HR bin_cover rs (combine (seq 0 (length pts)) pts)) as [b [y [B1 [B2 [B3 [B4 B5]]]]]].
  { intros q n H. apply Hrs in H. destruct H as [i [-> E]]. exists i. split; auto. simpl. rewrite E. split; auto. eapply Hr; eauto. }
  { auto. }
  rewrite B1. cbn [bind fst snd].
  assert (Hcomb : forall (l : list P) s j x, In (j, x) (combine (seq s (length l)) l) <-> (s <= j)%nat /\ nth_error l (j - s) = Some x).
  { induction l as [|z l IH]; intros s j x; simpl.
    - split; [tauto|]. intros [_ H]. destruct (j - s)%nat; discriminate.
    - rewrite IH. split.
      + intros [H|[H1 H2]]; [injection H as <- <-; split; [lia|]; rewrite Nat.sub_diag; auto|].
        split; [lia|]. replace (j - s)%nat with (S (j - S s)) by lia. auto.
      + intros [H1 H2]. destruct (Nat.eq_dec j s) as [->|N].
        * rewrite Nat.sub_diag in H2. simpl in H2. left. congruence.
        * right. split; [lia|]. replace (j - s)%nat with (S (j - S s)) in H2 by lia. auto. }
  assert (Hroot_of : forall z, root_of inside rs z <-> exists t, In t f /\ inside (n_data t) z = true).
  { intro z. unfold root_of. split.
    - intros [q [n [H1 H2]]]. apply Hrs in H1. destruct H1 as [i [-> E]]. exists n. split; auto. eapply nth_error_In; eauto.
    - intros [t [H1 H2]]. apply In_nth_error in H1. destruct H1 as [i E]. exists [i], t. split; auto. apply Hrs. eauto. }
  destruct y as [|[j z] y].
  - right. split.
    + intros x Hx. apply In_nth_error in Hx. destruct Hx as [j Ej].
      destruct (existsb (fun t => inside (n_data t) x) f) eqn:Ex.
      * apply existsb_exists in Ex. exact Ex.
      * exfalso. assert (H : In (j, x) []).
        { apply B5. split; [apply Hcomb; split; [lia|rewrite Nat.sub_0_r; auto]|].
          rewrite Hroot_of. intros [t [H1 H2]].
          assert (existsb (fun t => inside (n_data t) x) f = true) by (apply existsb_exists; eauto). congruence. }
        destruct H.
    + exists b. split; auto. split; [|split; auto].
      * simpl in B3. rewrite app_nil_r in B3. etransitivity; [exact B3|].
        assert (Em : forall (l : list P) s, map fst (combine (seq s (length l)) l) = seq s (length l)).
        { induction l as [|w l IH]; intro s; simpl; auto. f_equal. auto. }
        rewrite Em. apply Permutation_refl.
      * intros q idx Hq. destruct (B2 q idx Hq) as [N [[c [E [Lf Hj]]] _]]. split; auto. exists c. split; auto. split; auto.
        intros k Hk. destruct (Hj k Hk) as [w [Hw Iw]]. apply Hcomb in Hw. rewrite Nat.sub_0_r in Hw. exists w. tauto.
  - left. split; auto. destruct (proj1 (B5 j z) (or_introl eq_refl)) as [H1 H2]. exists z. split.
    + apply Hcomb in H1. destruct H1 as [_ H1]. eapply nth_error_In; eauto.
    + intros t Ht. destruct (inside (n_data t) z) eqn:E; auto. exfalso. apply H2. apply Hroot_of. eauto.
Qed.
End BinMesh.

(** contains_points of an interval and of a quadrilateral cell mean containment *)
Theorem C19_interval_contains (d : itv) (x : Q) : icontains d x = true <-> fst d <= x <= snd d.
Proof. unfold icontains. rewrite andb_true_iff, !negb_true_iff, !Qltb_ge. tauto. Qed.
Print Assumptions C19_interval_contains.
Theorem C19_quad_contains (q : quad) (p : pt) : qcontains 0 q p = true <-> in_quad q p.
Proof. apply qcontains_0. Qed.
Print Assumptions C19_quad_contains.

Lemma ikid_cover n d x : (0 < n)%nat -> icontains d x = true ->
  exists i, (i < n)%nat /\ icontains (ikid i n d) x = true.
Proof.
  intros Hn H. apply C19_interval_contains in H. destruct H as [H1 H2].
  assert (G : forall k i, (i + k = n)%nat -> (0 < k)%nat -> knot d n i <= x -> exists i, (i < n)%nat /\ icontains (ikid i n d) x = true).
  { induction k as [|k IH]; intros i E Hk Hx; [lia|].
    destruct (ikid_knots d n i ltac:(lia)) as [K1 K2]. replace (i + 1)%nat with (S i) in K2 by lia.
    destruct (Qlt_le_dec (knot d n (S i)) x) as [L|L].
    - destruct k.
      + exfalso. replace (S i) with n in L by lia. rewrite (knot_n d n Hn) in L. lra.
      + apply (IH (S i)); [lia|lia|lra].
    - exists i. split; [lia|]. apply C19_interval_contains. split; lra. }
  apply (G n 0%nat); auto. rewrite (knot_0 d n Hn). auto.
Qed.

(** Mesh1D.bin_points on a rooted submesh of a mesh made by any history of
    plain operations *)
Theorem C19_bin_points_interval (l : list op) (f : forest itv) (sf : option flag) (pts : list Q) :
  Forall plain l -> run ikid [] l = Ok f -> submesh_rooted f sf ->
  (* some point is outside of every root: AssertionError *)
  ((exists x, In x pts /\ forall t, In t f -> ~ (fst (n_data t) <= x <= snd (n_data t))) /\
   mesh_bin_points icontains sf f pts = Err AssertionError) \/
  (* otherwise: the bins partition the indices of the points, belong to
     different cells, and every cell is a leaf of the submesh that contains
     the points of its bin *)
  ((forall x, In x pts -> exists t, In t f /\ fst (n_data t) <= x <= snd (n_data t)) /\
   exists b, mesh_bin_points icontains sf f pts = Ok b /\
     Permutation (flat_map snd b) (seq 0 (length pts)) /\ NoDup (map fst b) /\
     forall q idx, In (q, idx) b -> idx <> [] /\ exists c, fget f q = Some c /\ is_leaf_of sf c /\
        forall j, In j idx -> exists x, nth_error pts j = Some x /\ fst (n_data c) <= x <= snd (n_data c)).
Proof.
  intros Pl E R.
  assert (G : fgen ikid f) by (eapply run_gen; eauto; intros i t H; destruct i; discriminate).
  destruct (@bin_mesh itv Q icontains ikid f sf G R) with (pts := pts) as [[[x [Hx H]] B]|[H [b [B1 [B2 [B3 B4]]]]]].
  - intros p n x _ Hn Hx. apply ikid_cover; auto.
  - left. split; auto. exists x. split; auto. intros t Ht K. apply C19_interval_contains in K. rewrite H in K; auto. discriminate.
  - right. split.
    + intros x Hx. destruct (H x Hx) as [t [H1 H2]]. exists t. split; auto. apply C19_interval_contains; auto.
    + exists b. split; auto. split; auto. split; auto. intros q idx Hq. destruct (B4 q idx Hq) as [N [c [Ec [Lf Hj]]]].
      split; auto. exists c. split; auto. split; auto. intros j Hj'. destruct (Hj j Hj') as [x [E1 E2]]. exists x. split; auto.
      apply C19_interval_contains; auto.
Qed.
Print Assumptions C19_bin_points_interval.

(** QuadMesh.bin_points, for every tolerance of contains_points (the code has
    1e-10); all root cells have four children *)
Lemma slots4 (f : forest quad) : fgen qkid f -> (forall t, In t f -> n_children t = 4%nat) ->
  forall p n, fget f p = Some n -> n_children n = 4%nat.
Proof.
  intros G H p n E. destruct p as [|i r]; [discriminate|]. simpl in E.
  destruct (nth_error f i) as [t|] eqn:Et; [|discriminate].
  specialize (G i t Et). specialize (H t (nth_error_In _ _ Et)). clear Et i f.
  revert t G H E. induction r as [|j r IH]; intros t G H E; simpl in E; [injection E as <-; auto|].
  destruct (nth_error (n_slots t) j) as [[k|]|] eqn:Ek; try discriminate.
  apply Gen_inv in G. destruct G as [_ [_ G]]. destruct (G j k Ek) as [_ [H1 H2]]. apply (IH k); auto. congruence.
Qed.
Theorem C19_bin_points_quad (l : list op) (f : forest quad) (sf : option flag) (tol : Q) (pts : list pt) :
  Forall plain l -> run qkid [] l = Ok f -> submesh_rooted f sf ->
  (forall t, In t f -> n_children t = 4%nat) -> 0 <= tol ->
  ((exists x, In x pts /\ forall t, In t f -> qcontains tol (n_data t) x = false) /\
   mesh_bin_points (qcontains tol) sf f pts = Err AssertionError) \/
  ((forall x, In x pts -> exists t, In t f /\ qcontains tol (n_data t) x = true) /\
   exists b, mesh_bin_points (qcontains tol) sf f pts = Ok b /\
     Permutation (flat_map snd b) (seq 0 (length pts)) /\ NoDup (map fst b) /\
     forall q idx, In (q, idx) b -> idx <> [] /\ exists c, fget f q = Some c /\ is_leaf_of sf c /\
        forall j, In j idx -> exists x, nth_error pts j = Some x /\ qcontains tol (n_data c) x = true).
Proof.
  intros Pl E R H4 Ht.
  assert (G : fgen qkid f) by (eapply run_gen; eauto; intros i t H; destruct i; discriminate).
  apply (@bin_mesh quad pt (qcontains tol) qkid f sf G R).
  intros p n x En Hn Hx. destruct (qchild_cover tol (n_data n) x Ht Hx) as [i [Hi Hc]].
  exists i. rewrite (slots4 f G H4 p n En). split; auto.
Qed.
Print Assumptions C19_bin_points_quad.

Example C19_case :
  mesh_bin_points icontains None iv_f [1 # 2; 3; 1; 0] = Ok [([0; 0]%nat, [3%nat]); ([0; 1; 1]%nat, [0%nat]); ([0; 2]%nat, [2%nat]); ([1; 1]%nat, [1%nat])] /\
  mesh_bin_points icontains (Some 1%nat) iv_f [1 # 2; 3; 1; 0] = Ok [([0; 0]%nat, [3%nat]); ([0; 1]%nat, [0%nat]); ([0; 2]%nat, [2%nat]); ([1]%nat, [1%nat])] /\
  mesh_bin_points icontains None iv_f [1 # 2; 5] = Err AssertionError.
Proof. vm_compute. repeat split. Qed.
(** a square and a trapezoid beside it; the square split, its third child again *)
Definition sq_ops : list (@op quad) :=
  [OAddTree 4 ((0, 0), (1, 0), (1, 1), (0, 1)); OAddTree 4 ((1, 0), (3, 0), (2, 1), (1, 1)); OSplit [0%nat]; ORecord 1%nat;
   OSplit [0; 2]%nat].
Definition sq_f : forest quad := match run qkid [] sq_ops with Ok f => f | Err _ => [] end.
Lemma sq_run : run qkid [] sq_ops = Ok sq_f. Proof. vm_compute. reflexivity. Qed.
Lemma sq_plain : Forall plain sq_ops. Proof. repeat constructor. Qed.
Lemma sq_four : forall t, In t sq_f -> n_children t = 4%nat.
Proof. intros t H. vm_compute in H. destruct H as [<-|[<-|[]]]; reflexivity. Qed.
Lemma sq_rooted : rooted sq_f 1%nat. Proof. apply subtrees_rooted_iff. vm_compute. reflexivity. Qed.
Example C19_quad_case :
  mesh_bin_points (qcontains (1 # 10000000000)) None sq_f [(7 # 8, 7 # 8); (1 # 8, 1 # 8); (5 # 2, 1 # 4)] =
    Ok [([0; 0]%nat, [1%nat]); ([0; 2; 2]%nat, [0%nat]); ([1%nat], [2%nat])] /\
  mesh_bin_points (qcontains (1 # 10000000000)) (Some 1%nat) sq_f [(7 # 8, 7 # 8); (1 # 8, 1 # 8); (5 # 2, 1 # 4)] =
    Ok [([0; 0]%nat, [1%nat]); ([0; 2]%nat, [0%nat]); ([1%nat], [2%nat])] /\
  mesh_bin_points (qcontains (1 # 10000000000)) None sq_f [(5 # 2, 3 # 4)] = Err AssertionError.
Proof. vm_compute. repeat split. Qed.

(** * C17, C18: neighbours in 1D meshes *)
From Coq Require Import List Arith Bool Lia QArith Lqa.
Import ListNotations.
From Verif Require Import Tree Forest SpecForest TreeFacts ForestFacts LabelFacts RootFacts History PlaceFacts
  RefineFacts RefineFacts2 Geom GenFacts SpecGeom IntervalFacts LeafFacts Mesh1D Mesh1DFacts Prop_Bin.
Open Scope Q_scope.

(** ** C17 *)
(** Any history of plain operations on root intervals that tile [a,b]; any
    rooted submesh; any cell [n] of it (leaf or not). *)
Theorem C17_right_neighbor (l : list op) (f : forest itv) (sf : option flag) (a b : Q) periodic p n :
  Forall plain l -> run ikid [] l = Ok f -> submesh_rooted f sf -> tiles a b (map n_data f) ->
  fget f p = Some n -> fl_ok sf n ->
  (* inside the domain: the leaf that begins where the cell ends *)
  (~ snd (n_data n) == b /\ exists q c, neighbor_phys periodic f sf 1 p = Ok (Some q) /\
      fget f q = Some c /\ is_leaf_of sf c /\ fst (n_data c) == snd (n_data n)) \/
  (* at the right end: None, or the first leaf of a periodic mesh *)
  (snd (n_data n) == b /\
   (periodic = false -> neighbor_phys periodic f sf 1 p = Ok None) /\
   (periodic = true -> exists q c, neighbor_phys periodic f sf 1 p = Ok (Some q) /\
      fget f q = Some c /\ is_leaf_of sf c /\ fst (n_data c) == a)).
Proof.
  intros P E R T En F. apply phys_right; auto. eapply run_gen; eauto. intros i t H. destruct i; discriminate.
Qed.
Print Assumptions C17_right_neighbor.
Theorem C17_left_neighbor (l : list op) (f : forest itv) (sf : option flag) (a b : Q) periodic p n :
  Forall plain l -> run ikid [] l = Ok f -> submesh_rooted f sf -> tiles a b (map n_data f) ->
  fget f p = Some n -> fl_ok sf n ->
  (~ fst (n_data n) == a /\ exists q c, neighbor_phys periodic f sf 0 p = Ok (Some q) /\
      fget f q = Some c /\ is_leaf_of sf c /\ snd (n_data c) == fst (n_data n)) \/
  (fst (n_data n) == a /\
   (periodic = false -> neighbor_phys periodic f sf 0 p = Ok None) /\
   (periodic = true -> exists q c, neighbor_phys periodic f sf 0 p = Ok (Some q) /\
      fget f q = Some c /\ is_leaf_of sf c /\ snd (n_data c) == b)).
Proof.
  intros P E R T En F. apply phys_left; auto. eapply run_gen; eauto. intros i t H. destruct i; discriminate.
Qed.
Print Assumptions C17_left_neighbor.

Lemma tiles_lt a b l : tiles a b l -> forall i j d e, (i < j)%nat -> nth_error l i = Some d -> nth_error l j = Some e -> snd d <= fst e.
Proof.
  revert a. induction l as [|x l IH]; intros a H i j d e L E1 E2; [destruct i; discriminate|].
  destruct H as [_ [_ H]]. destruct j as [|j]; [lia|]. destruct i as [|i].
  - injection E1 as <-. simpl in E2. destruct (tiles_nth _ _ _ H j e E2). auto.
  - apply (IH _ H i j); auto. lia.
Qed.
Lemma tiles_inj_fst a b l i j d e : tiles a b l -> nth_error l i = Some d -> nth_error l j = Some e -> fst d == fst e -> i = j.
Proof.
  intros T E1 E2 E. destruct (tiles_nth _ _ _ T i d E1) as [_ [P1 _]]. destruct (tiles_nth _ _ _ T j e E2) as [_ [P2 _]].
  destruct (Nat.lt_trichotomy i j) as [L|[L|L]]; auto; exfalso.
  - pose proof (tiles_lt _ _ _ T i j d e L E1 E2). lra.
  - pose proof (tiles_lt _ _ _ T j i e d L E2 E1). lra.
Qed.
Lemma tiles_inj_snd a b l i j d e : tiles a b l -> nth_error l i = Some d -> nth_error l j = Some e -> snd d == snd e -> i = j.
Proof.
  intros T E1 E2 E. destruct (tiles_nth _ _ _ T i d E1) as [_ [P1 _]]. destruct (tiles_nth _ _ _ T j e E2) as [_ [P2 _]].
  destruct (Nat.lt_trichotomy i j) as [L|[L|L]]; auto; exfalso.
  - pose proof (tiles_lt _ _ _ T i j d e L E1 E2). lra.
  - pose proof (tiles_lt _ _ _ T j i e d L E2 E1). lra.
Qed.

Section Order.
Context (f : forest itv) (sf : option flag) (a b : Q).
Hypothesis HG : fgen ikid f.
Hypothesis HR : submesh_rooted f sf.
Hypothesis HT : tiles a b (map n_data f).
Let L := fget_leaves f None sf DepthFirst.
Lemma order_tiles : tiles a b (map (fun c => n_data (snd c)) L).
Proof. apply forest_leaves_tile; auto. Qed.
Lemma order_in q c : fget f q = Some c -> is_leaf_of sf c -> exists m, nth_error L m = Some (q, c).
Proof.
  intros E H. apply In_nth_error. apply in_fget_leaves. split; auto. split; auto. exact I.
Qed.
Lemma order_at k p n : nth_error L k = Some (p, n) -> fget f p = Some n /\ is_leaf_of sf n.
Proof. intro E. apply nth_error_In in E. apply in_fget_leaves in E. tauto. Qed.
Lemma order_data k p n : nth_error L k = Some (p, n) -> nth_error (map (fun c => n_data (snd c)) L) k = Some (n_data n).
Proof. intro E. rewrite nth_error_map, E. auto. Qed.
Lemma order_right k p n : nth_error L k = Some (p, n) -> neighbor_phys false f sf 1 p = Ok (option_map fst (nth_error L (S k))).
Proof.
  intro E. destruct (order_at k p n E) as [Ep Lp]. pose proof (order_data k p n E) as Ek.
  destruct (@phys_right f sf a b HG HR HT false p n Ep (proj1 Lp)) as [[N [q [c [Q1 [Q2 [Q3 Q4]]]]]]|[N [Q1 _]]].
  - rewrite Q1. destruct (order_in q c Q2 Q3) as [m Em]. pose proof (order_data m q c Em) as Dm.
    destruct (nth_error L (S k)) as [[q' c']|] eqn:Es.
    + pose proof (order_data (S k) q' c' Es) as Ds. pose proof (tiles_joint _ _ _ order_tiles k _ _ Ek Ds) as J.
      assert (m = S k) by (eapply (tiles_inj_fst a b); [exact order_tiles|exact Dm|exact Ds|rewrite Q4; exact J]).
      subst m. rewrite Es in Em. injection Em as -> ->. reflexivity.
    + exfalso. apply N. apply (tiles_last _ _ _ order_tiles k); auto.
      apply nth_error_None in Es. assert (k < length L)%nat by (apply nth_error_Some; congruence). rewrite map_length. lia.
  - rewrite Q1 by auto. destruct (nth_error L (S k)) as [[q' c']|] eqn:Es; auto. exfalso.
    pose proof (order_data (S k) q' c' Es) as Ds. pose proof (tiles_joint _ _ _ order_tiles k _ _ Ek Ds) as J.
    destruct (tiles_nth _ _ _ order_tiles (S k) _ Ds) as [_ [B1 B2]]. lra.
Qed.
Lemma order_left k p n : nth_error L k = Some (p, n) ->
  neighbor_phys false f sf 0 p = Ok (match k with O => None | S k' => option_map fst (nth_error L k') end).
Proof.
  intro E. destruct (order_at k p n E) as [Ep Lp]. pose proof (order_data k p n E) as Ek.
  destruct (@phys_left f sf a b HG HR HT false p n Ep (proj1 Lp)) as [[N [q [c [Q1 [Q2 [Q3 Q4]]]]]]|[N [Q1 _]]].
  - rewrite Q1. destruct (order_in q c Q2 Q3) as [m Em]. pose proof (order_data m q c Em) as Dm.
    destruct k as [|k].
    + exfalso. apply N. apply (tiles_first a b _ _ order_tiles Ek).
    + destruct (nth_error L k) as [[q' c']|] eqn:Es.
      * pose proof (order_data k q' c' Es) as Ds. pose proof (tiles_joint _ _ _ order_tiles k _ _ Ds Ek) as J.
        assert (m = k) by (eapply (tiles_inj_snd a b); [exact order_tiles|exact Dm|exact Ds|rewrite Q4; symmetry; exact J]).
        subst m. rewrite Es in Em. injection Em as -> ->. reflexivity.
      * exfalso. apply nth_error_None in Es. assert (S k < length L)%nat by (apply nth_error_Some; congruence). lia.
  - rewrite Q1 by auto. destruct k as [|k]; auto. exfalso.
    destruct (nth_error L k) as [[q' c']|] eqn:Es.
    + pose proof (order_data k q' c' Es) as Ds. pose proof (tiles_joint _ _ _ order_tiles k _ _ Ds Ek) as J.
      destruct (tiles_nth _ _ _ order_tiles k _ Ds) as [B0 [B1 B2]]. lra.
    + apply nth_error_None in Es. assert (S k < length L)%nat by (apply nth_error_Some; congruence). lia.
Qed.
End Order.

(** Equivalently: the neighbours of the k-th leaf, in depth-first order, are the
    leaves k-1 and k+1. *)
Theorem C17_leaf_order (l : list op) (f : forest itv) (sf : option flag) (a b : Q) k p n :
  Forall plain l -> run ikid [] l = Ok f -> submesh_rooted f sf -> tiles a b (map n_data f) ->
  nth_error (fget_leaves f None sf DepthFirst) k = Some (p, n) ->
  neighbor_phys false f sf 1 p = Ok (option_map fst (nth_error (fget_leaves f None sf DepthFirst) (S k))) /\
  neighbor_phys false f sf 0 p =
    Ok (match k with O => None | S k' => option_map fst (nth_error (fget_leaves f None sf DepthFirst) k') end).
Proof.
  intros P E R T Ek.
  assert (G : fgen ikid f) by (eapply run_gen; eauto; intros i t H; destruct i; discriminate).
  split; [eapply order_right; eauto|eapply order_left; eauto].
Qed.
Print Assumptions C17_leaf_order.

(** Mesh1D.get_boundary_cells returns the first and the last leaf. *)
Theorem C17_boundary_cells (l : list op) (f : forest itv) (sf : option flag) (a b : Q) :
  Forall plain l -> run ikid [] l = Ok f -> submesh_rooted f sf -> tiles a b (map n_data f) -> f <> [] ->
  exists p n q c, boundary_cells f sf = Ok (Some p, Some q) /\
    fget f p = Some n /\ is_leaf_of sf n /\ fst (n_data n) == a /\
    fget f q = Some c /\ is_leaf_of sf c /\ snd (n_data c) == b.
Proof.
  intros P E R T Hf.
  assert (G : fgen ikid f) by (eapply run_gen; eauto; intros i t H; destruct i; discriminate).
  (* the loop keeps the last cell without neighbour on either side *)
  assert (Loop : forall ps lr, (forall p, In p ps -> exists n, fget f p = Some n /\ is_leaf_of sf n) ->
    exists lr', fold_res (fun lr p =>
      bind (neighbor_phys false f sf 0 p) (fun a =>
      bind (neighbor_phys false f sf 1 p) (fun b =>
      Ok (match a with None => Some p | Some _ => fst lr end, match b with None => Some p | Some _ => snd lr end)))) ps lr = Ok lr' /\
      (forall p, fst lr' = Some p -> fst lr = Some p \/ exists n, fget f p = Some n /\ is_leaf_of sf n /\ fst (n_data n) == a) /\
      (forall p, snd lr' = Some p -> snd lr = Some p \/ exists n, fget f p = Some n /\ is_leaf_of sf n /\ snd (n_data n) == b) /\
      ((exists p n, In p ps /\ fget f p = Some n /\ fst (n_data n) == a) \/ fst lr <> None -> fst lr' <> None) /\
      ((exists p n, In p ps /\ fget f p = Some n /\ snd (n_data n) == b) \/ snd lr <> None -> snd lr' <> None)).
  { induction ps as [|p ps IH]; intros lr Hp; cbn [fold_res].
    - exists lr. split; auto. split; auto. split; auto. split; intros [[x [y [[] _]]]|H]; auto.
    - destruct (Hp p (or_introl eq_refl)) as [n [En Ln]].
      destruct (@phys_left f sf a b G R T false p n En (proj1 Ln)) as [[N1 [q1 [c1 [A1 _]]]]|[N1 [A1 _]]];
      destruct (@phys_right f sf a b G R T false p n En (proj1 Ln)) as [[N2 [q2 [c2 [A2 _]]]]|[N2 [A2 _]]];
      try (rewrite A1); try (rewrite A2); auto; cbn [bind];
      (edestruct (fun lr => IH lr (fun x Hx => Hp x (or_intror Hx))) as [lr' [I1 [I2 [I3 [I4 I5]]]]]);
      exists lr'; (split; [exact I1|]); cbn [fst snd] in *.
      1: split; [|split; [|split]]; auto; intros [[x [y [[<-|Hx] [Ex Hy]]]]|H]; try (rewrite En in Ex; injection Ex as <-; tauto);
         try (apply I4; eauto 10); try (apply I5; eauto 10).
      1: split; [|split; [|split]]; auto;
         [ intros x Hx; destruct (I3 x Hx) as [I|I]; auto; injection I as <-; right; exists n; auto
         | intros [[x [y [[<-|Hx] [Ex Hy]]]]|H]; try (rewrite En in Ex; injection Ex as <-; tauto); apply I4; eauto 10
         | intros _; apply I5; right; discriminate ].
      1: split; [|split; [|split]]; auto;
         [ intros x Hx; destruct (I2 x Hx) as [I|I]; auto; injection I as <-; right; exists n; auto
         | intros _; apply I4; right; discriminate
         | intros [[x [y [[<-|Hx] [Ex Hy]]]]|H]; try (rewrite En in Ex; injection Ex as <-; tauto); apply I5; eauto 10 ].
      split; [|split; [|split]].
      + intros x Hx; destruct (I2 x Hx) as [I|I]; auto; injection I as <-; right; exists n; auto.
      + intros x Hx; destruct (I3 x Hx) as [I|I]; auto; injection I as <-; right; exists n; auto.
      + intros _; apply I4; right; discriminate.
      + intros _; apply I5; right; discriminate. }
  assert (HB : forall p, In p (map fst (fget_leaves f None sf BreadthFirst)) <-> exists n, fget f p = Some n /\ is_leaf_of sf n).
  { intro p. rewrite in_map_iff. split.
    - intros [[q c] [<- H]]. apply in_fget_leaves in H. exists c. tauto.
    - intros [n [H1 H2]]. exists (p, n). split; auto. apply in_fget_leaves. split; auto. split; auto. exact I. }
  destruct (Loop (map fst (fget_leaves f None sf BreadthFirst)) (None, None)) as [[lo hi] [L1 [L2 [L3 [L4 L5]]]]].
  { intros p. apply HB. }
  cbn [fst snd] in *. fold (boundary_cells f sf) in L1.
  assert (Hroot : forall i t, nth_error f i = Some t -> fl_ok sf t) by (intros; eapply root_fl; eauto).
  destruct (nth_error f 0) as [t0|] eqn:E0; [|destruct f; [congruence|discriminate]].
  destruct (go_down_first f sf G R t0 [0%nat] (root_at f 0 t0 E0) (Hroot _ _ E0)) as [p [n [_ [A2 [A3 A4]]]]].
  assert (Lf : (0 < length f)%nat) by (destruct f; [congruence|simpl; lia]).
  destruct (nth_error f (length f - 1)) as [t1|] eqn:E1; [|apply nth_error_None in E1; lia].
  destruct (go_down_last f sf G R t1 [(length f - 1)%nat] (root_at f _ t1 E1) (Hroot _ _ E1)) as [q [c [_ [B2 [B3 B4]]]]].
  assert (X1 : lo <> None).
  { apply L4. left. exists p, n. split; [apply HB; eauto|]. split; auto. rewrite A4.
    apply (tiles_first a b (map n_data f)); auto. rewrite nth_error_map, E0. auto. }
  assert (X2 : hi <> None).
  { apply L5. left. exists q, c. split; [apply HB; eauto|]. split; auto. rewrite B4.
    apply (tiles_last a b (map n_data f) T (length f - 1)); [rewrite nth_error_map, E1; auto|rewrite map_length; lia]. }
  destruct lo as [lo|]; [|congruence]. destruct hi as [hi|]; [|congruence].
  destruct (L2 lo eq_refl) as [Z|[n' [F1 [F2 F3]]]]; [discriminate|].
  destruct (L3 hi eq_refl) as [Z|[c' [F4 [F5 F6]]]]; [discriminate|].
  exists lo, n', hi, c'. rewrite L1. repeat split; auto; apply F2 || apply F5.
Qed.
Print Assumptions C17_boundary_cells.
Example C17_case :
  neighbor_phys false iv_f None 1 [0; 2]%nat = Ok (Some [1; 0]%nat) /\
  neighbor_phys false iv_f (Some 1%nat) 1 [0; 2]%nat = Ok (Some [1]%nat) /\
  neighbor_phys false iv_f None 0 [0; 2]%nat = Ok (Some [0; 1; 2]%nat) /\
  neighbor_phys false iv_f None 1 [1; 1]%nat = Ok None /\
  neighbor_phys true iv_f None 1 [1; 1]%nat = Ok (Some [0; 0]%nat) /\
  boundary_cells iv_f None = Ok (Some [0; 0]%nat, Some [1; 1]%nat).
Proof. vm_compute. repeat split. Qed.

(** ** C18 *)
(** What is true on a mesh that is not periodic: the level-wise neighbours are
    the adjacent siblings (or adjacent roots), which lie on the same level and
    share the endpoint; in all other cases the answer is None. *)
Theorem C18_level_siblings_partial (l : list op) (f : forest itv) (a b : Q) sf p i n :
  Forall plain l -> run ikid [] l = Ok f -> tiles a b (map n_data f) -> fget f (p ++ [i]) = Some n ->
  (neighbor_level false f sf 1 (p ++ [i]) = Ok (if present f (p ++ [S i]) then Some (p ++ [S i]) else None)) /\
  (neighbor_level false f sf 0 (p ++ [i]) = Ok (match i with O => None | S j => Some (p ++ [j]) end)) /\
  (forall c, fget f (p ++ [S i]) = Some c -> fst (n_data c) == snd (n_data n)) /\
  (forall j c, i = S j -> fget f (p ++ [j]) = Some c -> snd (n_data c) == fst (n_data n)).
Proof.
  intros P E T En.
  assert (G : fgen ikid f) by (eapply run_gen; eauto; intros j t H; destruct j; discriminate).
  unfold neighbor_level. cbn [Nat.eqb andb]. unfold next_of, previous_of, n_siblings, sibling.
  rewrite removelast_snoc, last_snoc.
  destruct p as [|x p].
  - change (fget f [i] = Some n) in En. unfold fget in En. destruct (nth_error f i) as [t|] eqn:Et; [|discriminate]. simpl in En; assert (t = n) by congruence; subst t.
    split; [|split; [destruct i; reflexivity|split]].
    + destruct (Nat.ltb_spec (S i) (length f)) as [L|L]; simpl app; unfold present, fget.
      * destruct (nth_error f (S i)) eqn:Es; [reflexivity|]. apply nth_error_None in Es. lia.
      * destruct (nth_error f (S i)) eqn:Es; [|reflexivity].
        assert (S i < length f)%nat by (apply nth_error_Some; congruence). lia.
    + intros c Ec. change (fget f [S i] = Some c) in Ec. unfold fget in Ec. destruct (nth_error f (S i)) as [u|] eqn:Eu; [|discriminate]. simpl in Ec; assert (u = c) by congruence; subst u.
      symmetry. apply (tiles_joint a b _ T i); rewrite nth_error_map; [rewrite Et|rewrite Eu]; auto.
    + intros j c -> Ec. change (fget f [j] = Some c) in Ec. unfold fget in Ec. destruct (nth_error f j) as [u|] eqn:Eu; [|discriminate]. simpl in Ec; assert (u = c) by congruence; subst u.
      apply (tiles_joint a b _ T j); rewrite nth_error_map; [rewrite Eu|rewrite Et]; auto.
  - set (Q := x :: p) in *. assert (HQ : Q <> []) by discriminate.
    destruct (parent_of f Q i n HQ En) as [y [Ey Ei]].
    pose proof (fgen_fget Q G Ey) as Gy. apply Gen_inv in Gy. destruct Gy as [_ [_ G3]]. destruct (G3 i n Ei) as [D _].
    change (match Q with [] => length f | _ :: _ => match fget f Q with Some n0 => n_children n0 | None => 0%nat end end)
      with (match fget f Q with Some n0 => n_children n0 | None => 0%nat end). rewrite Ey.
    split; [|split; [destruct i; reflexivity|split]].
    + destruct (Nat.ltb_spec (S i) (n_children y)) as [L|L]; unfold present.
      * destruct (family_member f G y Q i n (S i) Ey Ei L) as [c [Ec _]]. rewrite (fget_kid f Q y (S i) c Ey Ec). reflexivity.
      * destruct (fget f (Q ++ [S i])) as [c|] eqn:Ec; [|reflexivity]. exfalso.
        destruct (parent_of f Q (S i) c HQ Ec) as [y' [Ey' Ec']]. assert (y' = y) by congruence. subst y'.
        assert (S i < n_children y)%nat by (apply nth_error_Some; congruence). lia.
    + intros c Ec. destruct (parent_of f Q (S i) c HQ Ec) as [y' [Ey' Ec']]. assert (y' = y) by congruence. subst y'.
      destruct (G3 (S i) c Ec') as [Dc _]. rewrite Dc, D, ikid_joint; [reflexivity|]. apply nth_error_Some. congruence.
    + intros j c -> Ec. destruct (parent_of f Q j c HQ Ec) as [y' [Ey' Ec']]. assert (y' = y) by congruence. subst y'.
      destruct (G3 j c Ec') as [Dc _]. rewrite Dc, D, ikid_joint; [reflexivity|]. apply nth_error_Some. congruence.
Qed.
Print Assumptions C18_level_siblings_partial.

(** The claim fails inside the domain: two roots, both split; the cell [0,1] has
    the same-level neighbour [1,0] on its right, but the answer is None. *)
Definition lv_f : forest itv :=
  match run ikid [] [OAddTree 2 (0, 1); OAddTree 2 (1, 2); OSplit [0%nat]; OSplit [1%nat]] with Ok f => f | Err _ => [] end.
Theorem C18_level_refuted : exists n c,
  fget lv_f [0; 1]%nat = Some n /\ fget lv_f [1; 0]%nat = Some c /\ fst (n_data c) == snd (n_data n) /\
  length [0; 1]%nat = length [1; 0]%nat /\ neighbor_level false lv_f None 1 [0; 1]%nat = Ok None.
Proof. do 2 eexists. split; [vm_compute; reflexivity|]. split; [vm_compute; reflexivity|]. vm_compute. repeat split. Qed.
Print Assumptions C18_level_refuted.
(** And across the periodic boundary: one periodic root, split.  The left
    neighbour of the left half should be the right half; the answer is the left
    half itself (child 0 is taken instead of the last one).  Likewise on the
    right (child 1 is taken instead of the first). *)
Definition lp_f : forest itv :=
  match run ikid [] [OAddTree 2 (0, 1); OSplit [0%nat]] with Ok f => f | Err _ => [] end.
Theorem C18_level_periodic_refuted :
  neighbor_level true lp_f None 0 [0; 0]%nat = Ok (Some [0; 0]%nat) /\
  neighbor_level true lp_f None 1 [0; 1]%nat = Ok (Some [0; 1]%nat) /\
  neighbor_phys true lp_f None 0 [0; 0]%nat = Ok (Some [0; 1]%nat) /\
  neighbor_phys true lp_f None 1 [0; 1]%nat = Ok (Some [0; 0]%nat).
Proof. vm_compute. repeat split. Qed.
Print Assumptions C18_level_periodic_refuted.
Example C18_case : fget iv_f ([0; 1]%nat ++ [1%nat]) <> None /\
  neighbor_level false iv_f None 1 [0; 1; 1]%nat = Ok (Some [0; 1; 2]%nat).
Proof. vm_compute. split; [discriminate|reflexivity]. Qed.
(** Across the ends of a periodic mesh: the leftmost cell of level [d] gets the
    cell [last root, 0, ..., 0] of the same level, provided that all its proper
    ancestors are refined in the submesh, and None as soon as one is not (the
    rightmost: [0, 1, ..., 1]). *)
Lemma down_to_spec {A} (f : forest A) c sf : forall d p n, p <> [] -> fget f p = Some n ->
  forall r, down_to c sf d p n = Ok r ->
  (forall q, r = Some q -> q = p ++ repeat c d /\ fget f q <> None /\
     forall k, (k < d)%nat -> exists j x, fget f ((p ++ repeat c k) ++ [j]) = Some x /\ fl_ok sf x) /\
  (r = None -> exists k, (k < d)%nat /\ fget f (p ++ repeat c k) <> None /\
     forall j x, fget f ((p ++ repeat c k) ++ [j]) = Some x -> ~ fl_ok sf x).
Proof.
  induction d as [|d IH]; intros p n Hp En r E; cbn [down_to] in E.
  - injection E as <-. split; [|discriminate]. intros q Q. injection Q as <-. cbn. rewrite app_nil_r.
    split; [auto|]. split; [congruence|]. intros; lia.
  - destruct (has_children n sf) eqn:HC.
    + destruct (nth_error (n_slots n) c) as [[x|]|] eqn:Ex; try discriminate E.
      assert (Hx : fget f (p ++ [c]) = Some x) by (rewrite fget_snoc by auto; rewrite En, Ex; auto).
      assert (Hp' : p ++ [c] <> []) by (destruct p; discriminate).
      destruct (IH (p ++ [c]) x Hp' Hx r E) as [A1 A2].
      assert (RR : forall k, (p ++ [c]) ++ repeat c k = p ++ repeat c (S k)) by (intro k; rewrite <- app_assoc; reflexivity).
      split.
      * intros q Q. destruct (A1 q Q) as [B1 [B2 B3]]. split; [rewrite B1; apply RR|]. split; [auto|].
        intros [|k] Hk; [|rewrite <- RR; apply B3; lia]. cbn [repeat]. rewrite app_nil_r.
        unfold has_children in HC. apply existsb_exists in HC. destruct HC as [o [Ho B]]. destruct o as [y|]; [|discriminate].
        apply In_nth_error in Ho. destruct Ho as [j Hj]. exists j, y. split; [rewrite fget_snoc by auto; rewrite En, Hj; auto|].
        unfold fl_ok. destruct sf; auto.
      * intro Q. destruct (A2 Q) as [k [Hk [B1 B2]]]. exists (S k). rewrite <- RR. split; [lia|]. auto.
    + injection E as <-. split; [discriminate|]. intros _. exists 0%nat. cbn [repeat]. rewrite app_nil_r. split; [lia|]. split; [congruence|].
      intros j x Hx Fx. rewrite fget_snoc in Hx by auto. rewrite En in Hx.
      destruct (nth_error (n_slots n) j) as [[y|]|] eqn:Ej; try discriminate Hx. injection Hx as ->.
      assert (has_children n sf = true); [|congruence]. unfold has_children. apply existsb_exists. exists (Some x).
      split; [eapply nth_error_In; eauto|]. unfold fl_ok in Fx. destruct sf; auto.
Qed.
Theorem C18_level_periodic_partial {A} (f : forest A) (sf : option flag) (d : nat) (p : path) r :
  let wrap (q : path) (c : nat) :=
    (forall q', r = Some q' -> q' = q ++ repeat c d /\ fget f q' <> None /\
       forall k, (k < d)%nat -> exists j x, fget f ((q ++ repeat c k) ++ [j]) = Some x /\ fl_ok sf x) /\
    (r = None -> exists k, (k < d)%nat /\ fget f (q ++ repeat c k) <> None /\
       forall j x, fget f ((q ++ repeat c k) ++ [j]) = Some x -> ~ fl_ok sf x) in
  (p = repeat 0%nat (S d) -> neighbor_level true f sf 0 p = Ok r -> wrap [(length f - 1)%nat] 0%nat) /\
  (length p = S d -> at_right_end f p = true -> next_of f p = None -> neighbor_level true f sf 1 p = Ok r -> wrap [0%nat] 1%nat).
Proof.
  intro wrap. split.
  - intros -> E. unfold neighbor_level in E. cbn [Nat.eqb] in E.
    assert (L : at_left_end (repeat 0%nat (S d)) = true) by (clear; induction (S d); cbn; auto).
    assert (P : previous_of f (repeat 0%nat (S d)) = None).
    { unfold previous_of, sibling. rewrite <- (rev_involutive (repeat 0%nat (S d))). assert (Q : rev (repeat 0%nat (S d)) = repeat 0%nat (S d)).
      { clear. induction (S d) as [|n IH]; cbn; auto. rewrite IH. clear. induction n; cbn; congruence. }
      rewrite Q. cbn [repeat rev]. rewrite ?last_snoc, ?removelast_snoc. reflexivity. }
    rewrite P, L in E. cbn [andb] in E. destruct (fget f [length f - 1]%nat) as [n|] eqn:En; [|discriminate].
    rewrite repeat_length in E. replace (S d - 1)%nat with d in E by lia.
    apply (down_to_spec f 0 sf d [(length f - 1)%nat] n); auto. discriminate.
  - intros L RE N E. unfold neighbor_level in E. cbn [Nat.eqb] in E. rewrite N, RE in E. cbn [andb] in E.
    destruct (fget f [0%nat]) as [n|] eqn:En; [|discriminate]. rewrite L in E. replace (S d - 1)%nat with d in E by lia.
    apply (down_to_spec f 1 sf d [0%nat] n); auto. discriminate.
Qed.
Print Assumptions C18_level_periodic_partial.
Example C18_periodic_case : neighbor_level true lp_f (Some 5%nat) 0 [0; 0]%nat = Ok None.
Proof. vm_compute. reflexivity. Qed.

(** Positions of the nodes of 1D cells *)
From Coq Require Import List Arith Bool Lia QArith Lqa.
Import ListNotations.
From Verif Require Import Tree Forest SpecForest TreeFacts ForestFacts LabelFacts RootFacts History PlaceFacts
  RefineFacts RefineFacts2 Geom GenFacts SpecGeom IntervalFacts LeafFacts Mesh1D Mesh1DFacts Prop_1D Fem SpecFem ShapeFacts
  Prop_Inherit Dof SpecDof DofFacts DofInv.
Open Scope Q_scope.

Definition nodeQ (e : elem) (k : nat) : Q := nth k (reference_nodes1 e) 0.
Definition nd (e : elem) : nat := n_dofs D1 e.
Lemma nodes_len e : length (reference_nodes1 e) = nd e.
Proof. destruct e; reflexivity. Qed.
Lemma nodes_nth e k : (k < nd e)%nat -> nth_error (reference_nodes1 e) k = Some (nodeQ e k).
Proof. intro L. unfold nodeQ. apply nth_error_nth'. rewrite nodes_len. auto. Qed.
Lemma nodes_unit e k : 0 <= nodeQ e k /\ nodeQ e k <= 1.
Proof.
  destruct (Nat.lt_ge_cases k (nd e)) as [L|L].
  - assert (A : forallb (fun k => Qle_bool 0 (nodeQ e k) && Qle_bool (nodeQ e k) 1) (seq 0 (nd e)) = true) by (destruct e; vm_compute; reflexivity).
    rewrite seq_all in A. specialize (A k L). apply andb_true_iff in A. rewrite !Qle_bool_iff in A. auto.
  - unfold nodeQ. rewrite nth_overflow by (rewrite nodes_len; auto). lra.
Qed.
Lemma nodes_inj e k j : (k < nd e)%nat -> (j < nd e)%nat -> nodeQ e k == nodeQ e j -> k = j.
Proof.
  intros Lk Lj E.
  assert (A : forallb (fun k => forallb (fun j => negb (Qeq_bool (nodeQ e k) (nodeQ e j)) || (k =? j)%nat) (seq 0 (nd e))) (seq 0 (nd e)) = true) by (destruct e; vm_compute; reflexivity).
  rewrite seq_all in A. specialize (A k Lk). rewrite seq_all in A. specialize (A j Lj).
  apply Qeq_bool_iff in E. rewrite E in A. cbn in A. apply Nat.eqb_eq. auto.
Qed.
Lemma nodes_0 e : torn e = false -> (0 < nd e)%nat /\ nodeQ e 0 == 0.
Proof. destruct e; try discriminate; intros _; (split; [cbv; lia|reflexivity]). Qed.
Lemma nodes_1 e : torn e = false -> (1 < nd e)%nat /\ nodeQ e 1 == 1.
Proof. destruct e; try discriminate; intros _; (split; [cbv; lia|reflexivity]). Qed.
(** a node of the cell in the half [i] is inherited by the child [i] *)
Lemma nodes_half e i k : torn e = false -> (i < 2)%nat -> (k < nd e)%nat -> Qn i * (1 # 2) <= nodeQ e k <= Qn (S i) * (1 # 2) ->
  exists k', In (k, k') (inherited (ref1 e) i).
Proof.
  intros T Li Lk [H1 H2].
  assert (A : forallb (fun i => forallb (fun k => negb (Qle_bool (Qn i * (1 # 2)) (nodeQ e k) && Qle_bool (nodeQ e k) (Qn (S i) * (1 # 2)))
     || existsb (fun a => (fst a =? k)%nat) (inherited (ref1 e) i)) (seq 0 (nd e))) (seq 0 2) = true) by (destruct e; try discriminate T; vm_compute; reflexivity).
  rewrite seq_all in A. specialize (A i Li). rewrite seq_all in A. specialize (A k Lk).
  apply Qle_bool_iff in H1, H2. rewrite H1, H2 in A. cbn [andb negb orb] in A. apply existsb_exists in A. destruct A as [[j k'] [HI E]].
  apply Nat.eqb_eq in E. cbn in E. subst. eauto.
Qed.
Lemma inh_bound e i j k : (i < 2)%nat -> In (j, k) (inherited (ref1 e) i) -> (j < nd e)%nat /\ (k < nd e)%nat.
Proof.
  intros Hi H.
  assert (A : forallb (fun i => forallb (fun a => (fst a <? nd e)%nat && (snd a <? nd e)%nat) (inherited (ref1 e) i)) (seq 0 2) = true) by (destruct e; vm_compute; reflexivity).
  rewrite seq_all in A. specialize (A i Hi). rewrite forallb_forall in A. specialize (A _ H). apply andb_true_iff in A. rewrite !Nat.ltb_lt in A. auto.
Qed.
Lemma inh_place e d i j k : (i < 2)%nat -> In (j, k) (inherited (ref1 e) i) -> imap d (nodeQ e j) == imap (ikid i 2 d) (nodeQ e k).
Proof.
  intros Hi H. destruct (inh_bound e i j k Hi H) as [L1 L2].
  destruct (C36_physical_1d e d i j k Hi H) as [x [y [Hx [Hy E]]]]. rewrite nodes_nth in Hx, Hy by auto. congruence.
Qed.
Lemma ikid_half i d : (i < 2)%nat -> fst (ikid i 2 d) == fst d + (snd d - fst d) * (Qn i * (1 # 2)) /\
  snd (ikid i 2 d) == fst d + (snd d - fst d) * (Qn (S i) * (1 # 2)).
Proof. intro H. destruct i as [|[|i]]; [| |lia]; unfold ikid; cbn [isplit isplit_loop nth fst snd]; unfold Qn; cbn; split; field. Qed.

Section geom.
Context (periodic : bool) (f : forest itv) (a b : Q) (e : elem).
Hypothesis HG : fgen ikid f.
Hypothesis HU : forall p n, fget f p = Some n -> n_children n = 2%nat.
Hypothesis HT : tiles a b (map n_data f).
Hypothesis HP : periodic = true -> (2 <= length f)%nat.
Hypothesis Hcont : torn e = false.

Definition data (p : path) : itv := match fget f p with Some n => n_data n | None => (0, 0) end.
Definition pos (p : path) (k : nat) : Q := imap (data p) (nodeQ e k).
Definition same (x y : path * nat) : Prop := same_point periodic a b (pos (fst x) (snd x)) (pos (fst y) (snd y)).
Lemma same_refl x : same x x. Proof. left. reflexivity. Qed.
Lemma same_sym x y : same x y -> same y x.
Proof. unfold same, same_point. intros [H|[P [[H1 H2]|[H1 H2]]]]; [left; lra|right|right]; tauto. Qed.
Lemma same_trans x y z : same x y -> same y z -> same x z.
Proof.
  unfold same, same_point. intros [H|[P [[H1 H2]|[H1 H2]]]] [H'|[P' [[H3 H4]|[H3 H4]]]].
  - left. lra.
  - right. split; auto. left. split; auto. lra.
  - right. split; auto. right. split; auto. lra.
  - right. split; auto. left. split; auto. lra.
  - right. split; auto.
  - left. lra.
  - right. split; auto. right. split; auto. lra.
  - left. lra.
  - right. split; auto.
Qed.
Definition here (p : path) : Prop := fget f p <> None.
Lemma here_data p : here p -> exists n, fget f p = Some n /\ data p = n_data n.
Proof. unfold here, data. destruct (fget f p); [eauto|congruence]. Qed.
Lemma bounds p : here p -> a <= fst (data p) /\ fst (data p) < snd (data p) /\ snd (data p) <= b.
Proof. intro H. destruct (here_data p H) as [n [E ->]]. eapply cell_bounds; eauto. Qed.
Lemma pos_in p k : here p -> fst (data p) <= pos p k /\ pos p k <= snd (data p).
Proof. intro H. pose proof (bounds p H). unfold pos, imap. pose proof (nodes_unit e k). split; nra. Qed.
Lemma pos_0 p : pos p 0 == fst (data p).
Proof. unfold pos, imap. destruct (nodes_0 e Hcont) as [_ E]. rewrite E. ring. Qed.
Lemma pos_1 p : pos p 1 == snd (data p).
Proof. unfold pos, imap. destruct (nodes_1 e Hcont) as [_ E]. rewrite E. ring. Qed.
Lemma pos_inj p k j : here p -> (k < nd e)%nat -> (j < nd e)%nat -> pos p k == pos p j -> k = j.
Proof.
  intros H L1 L2 E. pose proof (bounds p H). apply (nodes_inj e k j L1 L2). unfold pos, imap in E.
  assert (X : (snd (data p) - fst (data p)) * (nodeQ e k - nodeQ e j) == 0) by lra.
  apply Qmult_integral in X. destruct X; lra.
Qed.
(** children *)
Lemma kid_facts p i : p <> [] -> here (p ++ [i]) -> here p /\ (i < 2)%nat /\ data (p ++ [i]) = ikid i 2 (data p) /\
  forall j, (j < 2)%nat -> here (p ++ [j]).
Proof.
  intros Hp H. destruct (here_data _ H) as [c [Ec Dc]]. destruct (parent_of f p i c Hp Ec) as [x [Ex Ei]].
  pose proof (HU p x Ex) as NC. assert (Li : (i < 2)%nat) by (rewrite <- NC; apply nth_error_Some; congruence).
  destruct (family_member f HG x p i c i Ex Ei) as [c' [E1 E2]]; [rewrite NC; exact Li|]. assert (c' = c) by congruence. subst c'.
  split; [unfold here; congruence|]. split; auto. split; [rewrite Dc, E2, NC; unfold data; rewrite Ex; auto|].
  intros j Hj. destruct (family_member f HG x p i c j Ex Ei) as [c' [E3 _]]; [rewrite NC; exact Hj|]. unfold here.
  rewrite (fget_kid f p x j c' Ex E3). discriminate.
Qed.
Lemma here_prefix p r : p <> [] -> here (p ++ r) -> here p.
Proof.
  intros Hp. induction r as [|i r IH] using rev_ind; [rewrite app_nil_r; auto|]. rewrite app_assoc. intro H.
  apply kid_facts in H; [apply IH; apply H|]. destruct p; [congruence|discriminate].
Qed.
Lemma nested p r : p <> [] -> here (p ++ r) -> fst (data p) <= fst (data (p ++ r)) /\ snd (data (p ++ r)) <= snd (data p).
Proof.
  intros Hp. induction r as [|i r IH] using rev_ind; [rewrite app_nil_r; intros _; lra|]. rewrite app_assoc. intro H.
  assert (Hq : p ++ r <> []) by (destruct p; [congruence|discriminate]).
  destruct (kid_facts _ i Hq H) as [H1 [H2 [H3 _]]]. specialize (IH H1). pose proof (bounds _ H1). rewrite H3.
  destruct (ikid_half i (data (p ++ r)) H2) as [E1 E2]. rewrite E1, E2.
  assert (Q0 : Qn 0 == 0) by reflexivity. assert (Q1' : Qn 1 == 1) by reflexivity. assert (Q2' : Qn 2 == 2) by reflexivity.
  destruct i as [|[|i]]; [| |lia]; rewrite ?Q0, ?Q1', ?Q2'; split; lra.
Qed.
(** a periodic domain is not one cell *)
Lemma roots_here i : here [i] <-> (i < length f)%nat.
Proof.
  unfold here. cbn. destruct (nth_error f i) as [t|] eqn:E.
  - split; [intros _; apply nth_error_Some; congruence|]. intros _. discriminate.
  - split; [congruence|]. apply nth_error_None in E. clear - E. lia.
Qed.
Lemma root_data i t : nth_error f i = Some t -> nth_error (map n_data f) i = Some (data [i]).
Proof. intro E. rewrite nth_error_map, E. unfold data. cbn. rewrite E. reflexivity. Qed.
Lemma root_data' i : (i < length f)%nat -> nth_error (map n_data f) i = Some (data [i]).
Proof. intro L. apply nth_error_Some in L. destruct (nth_error f i) as [t|] eqn:E; [|congruence]. eapply root_data; eauto. Qed.
Lemma not_whole p : periodic = true -> here p -> fst (data p) == a -> snd (data p) == b -> False.
Proof.
  intros P H E1 E2. pose proof (HP P) as HP2. destruct p as [|i r]; [destruct (here_data _ H) as [n [X _]]; discriminate|].
  assert (Hi : here [i]) by (apply (here_prefix [i] r); [discriminate|exact H]).
  pose proof (nested [i] r ltac:(discriminate) H) as N. cbn [app] in N. pose proof (bounds [i] Hi) as B.
  apply roots_here in Hi. assert (X1 := root_data' i Hi).
  assert (X2 := root_data' 0 ltac:(lia)). assert (X3 := root_data' (length f - 1) ltac:(lia)).
  pose proof (tiles_first a b _ _ HT X2) as Y2.
  pose proof (tiles_last a b _ HT _ _ X3 ltac:(rewrite map_length; lia)) as Y3.
  assert (i = 0%nat) by (apply (tiles_inj_fst a b _ _ _ _ _ HT X1 X2); lra).
  assert (i = (length f - 1)%nat) by (apply (tiles_inj_snd a b _ _ _ _ _ HT X1 X3); lra). lia.
Qed.
Lemma same_in p k j : here p -> same (p, k) (p, j) -> pos p k == pos p j.
Proof.
  intros H [E|[P E]]; auto. exfalso. cbn in E. pose proof (pos_in p k H). pose proof (pos_in p j H). pose proof (bounds p H).
  apply (not_whole p P H); destruct E as [[E1 E2]|[E1 E2]]; lra.
Qed.
Lemma same_slots p k j : here p -> (k < nd e)%nat -> (j < nd e)%nat -> same (p, k) (p, j) -> k = j.
Proof. intros H L1 L2 S. eapply pos_inj; eauto. apply same_in; auto. Qed.
(** [c] and [c'] are adjacent: the right end of [c] is the left end of [c'] *)
Definition adj (c c' : path) : Prop :=
  (exists p i, c = p ++ [i] /\ c' = p ++ [S i] /\ here c /\ here c') \/
  (periodic = true /\ c = [length f - 1]%nat /\ c' = [0%nat] /\ here c /\ here c').
Lemma adj_here c c' : adj c c' -> here c /\ here c'.
Proof. intros [[p [i [_ [_ H]]]]|[_ [_ [_ H]]]]; auto. Qed.
Lemma adj_neq c c' : adj c c' -> c <> c'.
Proof.
  intros [[p [i [-> [-> _]]]]|[P [-> [-> _]]]] E.
  - apply app_inv_head in E. injection E as E. lia.
  - pose proof (HP P) as HP2. injection E as E. lia.
Qed.
Lemma snoc_inj {X} (p q : list X) x y : p ++ [x] = q ++ [y] -> p = q /\ x = y.
Proof. intro E. apply app_inj_tail in E. auto. Qed.
Lemma adj_l c c1 c2 : adj c1 c -> adj c2 c -> c1 = c2.
Proof.
  intros [[p [i [-> [-> _]]]]|[P [-> [-> _]]]] [[q [j [-> [E _]]]]|[P' [-> [E _]]]]; auto.
  - apply snoc_inj in E. destruct E as [-> E]. injection E as ->. auto.
  - change [0%nat] with ([] ++ [0%nat]) in E. apply snoc_inj in E. destruct E; discriminate.
  - change [0%nat] with ([] ++ [0%nat]) in E. apply snoc_inj in E. destruct E; discriminate.
Qed.
Lemma adj_r c c1 c2 : adj c c1 -> adj c c2 -> c1 = c2.
Proof.
  intros [[p [i [-> [-> [_ H1]]]]]|[P [-> [-> _]]]] [[q [j [E [-> [_ H2]]]]]|[P' [E [-> _]]]]; auto.
  - apply snoc_inj in E. destruct E as [-> ->]. auto.
  - exfalso. change [(length f - 1)%nat] with ([] ++ [(length f - 1)%nat]) in E. apply snoc_inj in E. destruct E as [-> ->].
    apply roots_here in H1. lia.
  - exfalso. change [(length f - 1)%nat] with ([] ++ [(length f - 1)%nat]) in E. apply snoc_inj in E. destruct E as [<- <-].
    apply roots_here in H2. lia.
Qed.
Lemma joint p i : here (p ++ [i]) -> here (p ++ [S i]) -> snd (data (p ++ [i])) == fst (data (p ++ [S i])).
Proof.
  intros H1 H2. destruct p as [|x p].
  - cbn [app] in *. apply roots_here in H1, H2. apply (tiles_joint a b _ HT i); apply root_data'; auto.
  - destruct (kid_facts (x :: p) i ltac:(discriminate) H1) as [A1 [A2 [A3 _]]].
    destruct (kid_facts (x :: p) (S i) ltac:(discriminate) H2) as [_ [B2 [B3 _]]].
    rewrite A3, B3. destruct i; [|lia]. unfold ikid. cbn [isplit isplit_loop nth fst snd]. reflexivity.
Qed.
Lemma adj_same c c' : adj c c' -> same (c, 1%nat) (c', 0%nat).
Proof.
  intros [[p [i [-> [-> [H1 H2]]]]]|[P [-> [-> [H1 H2]]]]]; unfold same; cbn [fst snd].
  - left. rewrite pos_1, pos_0. apply joint; auto.
  - right. split; auto. right. rewrite pos_1, pos_0. apply roots_here in H1, H2. split.
    + apply (tiles_last a b _ HT (length f - 1)); [apply root_data'; auto|rewrite map_length; lia].
    + apply (tiles_first a b _ _ HT (root_data' 0 H2)).
Qed.
(** siblings are ordered *)
Lemma ordered p i j : here (p ++ [i]) -> here (p ++ [j]) -> (i < j)%nat -> snd (data (p ++ [i])) <= fst (data (p ++ [j])).
Proof.
  intros H1 H2 L. destruct p as [|x p].
  - cbn [app] in *. apply roots_here in H1, H2. apply (tiles_lt a b _ HT i j); auto; apply root_data'; auto.
  - destruct (kid_facts (x :: p) i ltac:(discriminate) H1) as [A1 [A2 [A3 _]]].
    destruct (kid_facts (x :: p) j ltac:(discriminate) H2) as [_ [B2 _]].
    replace j with (S i) in * by lia. pose proof (joint (x :: p) i H1 H2). lra.
Qed.
Lemma diverge : forall p q : path, ~ prefix p q -> ~ prefix q p -> exists r i j p' q', p = r ++ i :: p' /\ q = r ++ j :: q' /\ i <> j.
Proof.
  induction p as [|x p IH]; intros q N1 N2.
  - exfalso. apply N1. exists q. auto.
  - destruct q as [|y q]; [exfalso; apply N2; exists (x :: p); auto|]. destruct (Nat.eq_dec x y) as [->|N].
    + destruct (IH q) as [r [i [j [p' [q' [E1 [E2 E3]]]]]]].
      * intros [r E]. apply N1. exists r. cbn. congruence.
      * intros [r E]. apply N2. exists r. cbn. congruence.
      * exists (y :: r), i, j, p', q'. cbn. split; [congruence|]. split; [congruence|auto].
    + exists [], x, y, p, q. auto.
Qed.
Lemma snoc_split {X} (r : list X) i p : r ++ i :: p = (r ++ [i]) ++ p.
Proof. rewrite <- app_assoc. reflexivity. Qed.
(** two points of different branches that are the same are the ends of adjacent
    cells above them *)
Definition meet (p q : path) (x y : Q) : Prop :=
  exists c c', adj c c' /\ prefix c p /\ prefix c' q /\ x == snd (data c) /\ y == fst (data c').
Lemma separate_lt r i j p' q' x y : (i < j)%nat -> here (r ++ i :: p') -> here (r ++ j :: q') ->
  fst (data (r ++ i :: p')) <= x <= snd (data (r ++ i :: p')) -> fst (data (r ++ j :: q')) <= y <= snd (data (r ++ j :: q')) ->
  same_point periodic a b x y -> meet (r ++ i :: p') (r ++ j :: q') x y \/ meet (r ++ j :: q') (r ++ i :: p') y x.
Proof.
  intros L H1 H2 X Y S. rewrite snoc_split in *. rewrite (snoc_split r j q') in *.
  assert (N1 : r ++ [i] <> []) by (destruct r; discriminate). assert (N2 : r ++ [j] <> []) by (destruct r; discriminate).
  pose proof (here_prefix _ _ N1 H1) as G1. pose proof (here_prefix _ _ N2 H2) as G2.
  pose proof (nested _ _ N1 H1). pose proof (nested _ _ N2 H2). pose proof (ordered r i j G1 G2 L).
  pose proof (bounds _ G1). pose proof (bounds _ G2). pose proof (bounds _ H1). pose proof (bounds _ H2).
  destruct S as [S|[P S]].
  - left. exists (r ++ [i]), (r ++ [j]).
    assert (j = Datatypes.S i).
    { destruct r as [|z r].
      - cbn [app] in *. destruct (Nat.eq_dec j (Datatypes.S i)) as [|NE]; auto. exfalso. apply roots_here in G1, G2.
        assert (G3 : here [Datatypes.S i]) by (apply roots_here; lia).
        pose proof (ordered [] (Datatypes.S i) j G3 (proj2 (roots_here j) G2) ltac:(lia)) as O. cbn [app] in O.
        pose proof (joint [] i (proj2 (roots_here i) G1) G3) as O2. cbn [app] in O2. pose proof (bounds _ G3). lra.
      - destruct (kid_facts (z :: r) j ltac:(discriminate) G2) as [_ [B2 _]]. lia. }
    subst j. split; [left; exists r, i; auto|]. split; [apply prefix_app|]. split; [apply prefix_app|]. split; lra.
  - destruct S as [[S1 S2]|[S1 S2]]; [|exfalso; lra].
    right. assert (r = []).
    { destruct r as [|z r]; auto. exfalso.
      destruct (kid_facts (z :: r) i ltac:(discriminate) G1) as [B1 _]. pose proof (bounds _ B1).
      pose proof (nested (z :: r) [i] ltac:(discriminate) G1). pose proof (nested (z :: r) [j] ltac:(discriminate) G2).
      apply (not_whole (z :: r) P B1); lra. }
    subst r. cbn [app] in *. pose proof G1 as R1. pose proof G2 as R2. apply roots_here in R1, R2.
    assert (X2 := root_data' 0 ltac:(lia)). assert (X3 := root_data' (length f - 1) ltac:(lia)).
    pose proof (tiles_first a b _ _ HT X2) as Y2. pose proof (tiles_last a b _ HT _ _ X3 ltac:(rewrite map_length; lia)) as Y3.
    assert (i = 0%nat) by (apply (tiles_inj_fst a b _ _ _ _ _ HT (root_data' i R1) X2); lra).
    assert (j = (length f - 1)%nat) by (apply (tiles_inj_snd a b _ _ _ _ _ HT (root_data' j R2) X3); lra). subst i j.
    exists [(length f - 1)%nat], [0%nat]. split; [right; auto|]. split; [exists q'; auto|]. split; [exists p'; auto|]. split; lra.
Qed.
Lemma separate p q x y : here p -> here q -> ~ prefix p q -> ~ prefix q p ->
  fst (data p) <= x <= snd (data p) -> fst (data q) <= y <= snd (data q) -> same_point periodic a b x y ->
  meet p q x y \/ meet q p y x.
Proof.
  intros H1 H2 N1 N2 X Y S. destruct (diverge p q N1 N2) as [r [i [j [p' [q' [-> [-> E]]]]]]].
  destruct (Nat.lt_ge_cases i j) as [L|L].
  - apply separate_lt; auto.
  - assert (S' : same_point periodic a b y x) by (destruct S as [S|[P [S|S]]]; [left; lra|right; tauto|right; tauto]).
    assert (L' : (j < i)%nat) by lia. destruct (separate_lt r j i q' p' y x L' H2 H1 Y X S'); auto.
Qed.

(** ** the invariant *)
Let n := nd e.
Definition inh1 := inherited (ref1 e).
Definition complete (s : dofs) (p : path) : Prop := forall k, (k < n)%nat -> slot s p k <> None.
Definition shared (s : dofs) (p : path) : Prop := complete s p /\
  forall i k k', here (p ++ [i]) -> In (k, k') (inh1 i) -> slot s (p ++ [i]) k' = slot s p k.
Definition inv (s : dofs) : Prop :=
  base_inv n s /\ classes same s /\
  (forall p k d, slot s p k = Some d -> here p) /\
  (forall c c', adj c c' -> slot s c 1 = slot s c' 0) /\
  (forall p i k d, p <> [] -> slot s (p ++ [i]) k = Some d -> shared s p).
Lemma complete_keeps s s' p : keeps' s s' -> complete s p -> complete s' p.
Proof. intros K C k L. destruct (slot s p k) eqn:E; [rewrite (K _ _ _ E); discriminate|]. exfalso. apply (C k L E). Qed.
Lemma shared_keeps s s' p : keeps' s s' -> p <> [] -> shared s p -> shared s' p.
Proof.
  intros K Hp [C H]. split; [eapply complete_keeps; eauto|]. intros i k k' Hi HI.
  assert (Li : (i < 2)%nat) by (apply (kid_facts p i Hp Hi)). destruct (inh_bound e i k k' Li HI) as [L _].
  destruct (slot s p k) as [d|] eqn:E; [|exfalso; apply (C k L E)].
  rewrite (K _ _ _ E). apply K. rewrite (H i k k' Hi HI). auto.
Qed.
Lemma n_pos : (1 < n)%nat.
Proof. apply (nodes_1 e Hcont). Qed.
Lemma shared_up s p r : inv s -> p <> [] -> shared s (p ++ r) -> shared s p.
Proof.
  intros I Hp. induction r as [|i r IH] using rev_ind; [rewrite app_nil_r; auto|]. rewrite app_assoc. intro H. apply IH.
  destruct H as [C _]. pose proof n_pos. destruct (slot s ((p ++ r) ++ [i]) 0) as [d|] eqn:E; [|exfalso; apply (C 0%nat); auto; lia].
  eapply I; [|exact E]. destruct p; [congruence|discriminate].
Qed.
Lemma filled_above s p q k d : inv s -> slot s q k = Some d -> prefix p q -> p <> q -> p <> [] -> shared s p.
Proof.
  intros I E [r ->] N Hp. destruct (exists_last (l := r)) as [r' [i ->]]; [intros ->; apply N; rewrite app_nil_r; auto|].
  rewrite app_assoc in E. apply (shared_up s p r' I Hp). eapply I; [|exact E]. destruct p; [congruence|discriminate].
Qed.
(** a dof of a cell goes down to all cells below at the same point *)
Lemma descend s c : inv s -> c <> [] -> forall r k d, here (c ++ r) -> (r <> [] -> shared s (removelast (c ++ r))) ->
  slot s c k = Some d -> fst (data (c ++ r)) <= pos c k <= snd (data (c ++ r)) ->
  exists k', slot s (c ++ r) k' = Some d /\ pos (c ++ r) k' == pos c k.
Proof.
  intros I Hc. induction r as [|i r IH] using rev_ind; intros k d H S E X.
  - rewrite app_nil_r in *. exists k. split; auto. reflexivity.
  - rewrite app_assoc in *. set (q := c ++ r) in *. assert (Hq : q <> []) by (unfold q; destruct c; [congruence|discriminate]).
    assert (Sq : shared s q) by (specialize (S ltac:(destruct r; discriminate)); rewrite removelast_snoc in S; auto).
    destruct (kid_facts q i Hq H) as [H1 [H2 [H3 _]]]. pose proof (bounds q H1) as B. destruct (ikid_half i (data q) H2) as [K1 K2].
    rewrite H3, K1, K2 in X.
    destruct (IH k d H1) as [k1 [E1 P1]]; auto.
    + intro Nr. destruct (exists_last Nr) as [r' [j Ej]]. assert (EQ : q = (c ++ r') ++ [j]) by (unfold q; rewrite Ej, app_assoc; auto). rewrite EQ in *.
      rewrite removelast_snoc. apply (shared_up s (c ++ r') [j] I); auto. destruct c; [congruence|discriminate].
    + assert (Q0 : Qn 0 == 0) by reflexivity. assert (Q1' : Qn 1 == 1) by reflexivity. assert (Q2' : Qn 2 == 2) by reflexivity.
      destruct i as [|[|i]]; [| |lia]; rewrite ?Q0, ?Q1', ?Q2' in X; split; lra.
    + assert (L1 : (k1 < nd e)%nat) by (eapply (slot_bound n); [apply I|exact E1]).
      destruct (nodes_half e i k1 Hcont H2 L1) as [k2 HI].
      { assert (Y : pos q k1 == fst (data q) + (snd (data q) - fst (data q)) * nodeQ e k1) by (unfold pos, imap; reflexivity).
        rewrite <- P1, Y in X.
        assert (Z : 0 <= (snd (data q) - fst (data q)) * (nodeQ e k1 - Qn i * (1 # 2)) /\ 0 <= (snd (data q) - fst (data q)) * (Qn (Datatypes.S i) * (1 # 2) - nodeQ e k1)) by lra.
        destruct Z as [Z1 Z2]. split.
        - destruct (Qlt_le_dec (nodeQ e k1) (Qn i * (1 # 2))); auto. nra.
        - destruct (Qlt_le_dec (Qn (Datatypes.S i) * (1 # 2)) (nodeQ e k1)); auto. nra. }
      exists k2. split; [rewrite (proj2 Sq i k1 k2 H HI); auto|].
      rewrite <- P1. unfold pos. rewrite H3. symmetry. apply inh_place; auto.
Qed.
Definition ready (s : dofs) (p : path) : Prop := forall q i, p = q ++ [i] -> q <> [] -> shared s q.
Lemma ready_above s p c r : p = c ++ r -> c <> [] -> ready s p -> r <> [] -> shared s (removelast (c ++ r)).
Proof.
  intros -> Hc R Nr. destruct (exists_last Nr) as [r' [j ->]]. rewrite app_assoc, removelast_snoc. apply (R (c ++ r') j); [apply app_assoc|].
  destruct c; [congruence|discriminate].
Qed.
Lemma here_ne p : here p -> p <> [].
Proof. intros H ->. apply H. reflexivity. Qed.
(** if a slot of a cell is at the same point as a filled slot then it is filled *)
Lemma cover s p k q j d : inv s -> here p -> ready s p -> (k < n)%nat -> slot s q j = Some d -> same (q, j) (p, k) -> slot s p k <> None.
Proof.
  intros I Hp R Lk E Sm. pose proof I as [[W _] [_ [I3 [I4 I5]]]]. pose proof (I3 _ _ _ E) as Hq.
  pose proof (here_ne p Hp) as Np. pose proof (here_ne q Hq) as Nq.
  assert (Lj : (j < nd e)%nat) by (eapply (slot_bound n); eauto).
  destruct (path_dec q p) as [->|Nqp].
  { rewrite <- (same_slots p j k Hp Lj Lk Sm). congruence. }
  destruct (prefix_dec p q) as [P1|P1].
  { apply (filled_above s p q j d I E P1); auto. }
  (* from a cell above with the point at slot k0 *)
  assert (Go : forall c k0 d0, prefix c p -> c <> [] -> slot s c k0 = Some d0 -> pos c k0 == pos p k -> slot s p k <> None).
  { intros c k0 d0 [r Er] Hc Ec Ep. destruct (descend s c I Hc r k0 d0) as [k' [F1 F2]]; auto.
    - rewrite <- Er. auto.
    - apply (ready_above s p c r Er Hc R).
    - rewrite <- Er, Ep. apply pos_in; auto.
    - rewrite <- Er in F1, F2. assert (k' = k); [|subst; congruence].
      apply (pos_inj p k' k Hp); [eapply (slot_bound n); eauto|auto|lra]. }
  assert (Top : forall c, prefix c q -> c <> [] -> forall k0, (k0 < n)%nat -> pos q j == pos c k0 -> exists d0, slot s c k0 = Some d0).
  { intros c Pc Hc k0 L0 Ep. destruct (path_dec c q) as [->|N].
    - exists d. assert (j = k0) by (apply (pos_inj q j k0 Hq Lj L0 Ep)). congruence.
    - destruct (filled_above s c q j d I E Pc N Hc) as [C _]. specialize (C k0 L0). destruct (slot s c k0); [eauto|congruence]. }
  destruct (prefix_dec q p) as [P2|P2].
  { apply (Go q j d P2 Nq E). destruct Sm as [Sm|[P Sm]]; auto. exfalso. cbn in Sm.
    destruct P2 as [r Er]. pose proof (nested q r Nq ltac:(rewrite <- Er; auto)) as N. rewrite <- Er in N.
    pose proof (bounds q Hq). pose proof (bounds p Hp). pose proof (pos_in q j Hq). pose proof (pos_in p k Hp).
    apply (not_whole q P Hq); destruct Sm as [[S1 S2]|[S1 S2]]; lra. }
  pose proof n_pos as NP.
  destruct (separate q p (pos q j) (pos p k) Hq Hp P2 P1 (pos_in q j Hq) (pos_in p k Hp) Sm) as [M|M];
    destruct M as [c [c' [A [Pc [Pc' [X1 X2]]]]]]; destruct (adj_here _ _ A) as [Hc Hc']; apply here_ne in Hc, Hc'.
  - destruct (Top c Pc Hc 1%nat ltac:(lia)) as [d0 E0]; [rewrite pos_1; auto|].
    rewrite (I4 c c' A) in E0. apply (Go c' 0%nat d0 Pc' Hc' E0). rewrite pos_0. lra.
  - destruct (Top c' Pc' Hc' 0%nat ltac:(lia)) as [d0 E0]; [rewrite pos_0; auto|].
    rewrite <- (I4 c c' A) in E0. apply (Go c 1%nat d0 Pc Hc E0). rewrite pos_1. lra.
Qed.

(** ** filling *)
Lemma fill_ok_ext p s1 s s' : (forall q k, slot s1 q k = slot s q k) -> dcount s1 = dcount s -> fill_ok n p s1 s' -> fill_ok n p s s'.
Proof.
  intros E C [A1 [A2 [A3 [A4 [A5 [A6 A7]]]]]]. rewrite C in *. split; auto. split; auto.
  split; [intros q k H; rewrite A3, E; auto|]. split; [intros k d H; apply A4; rewrite E; auto|].
  split; [intros k L H; apply A5; auto; rewrite E; auto|].
  split; [intros d H; destruct (A6 d H) as [k Hk]; exists k; rewrite <- E; auto|].
  intros k j d H1 H2. apply A7; rewrite E; auto.
Qed.
Lemma full_slots s p k : wf n s -> full (entry n s p) = true -> (k < n)%nat -> slot s p k <> None.
Proof.
  intros W F L. unfold full in F. rewrite forallb_forall in F. pose proof (entry_nth_error n s p k W L) as E.
  apply nth_error_In in E. specialize (F _ E). destruct (slot s p k); congruence.
Qed.
Lemma fill_dofs_ok s p : wf n s -> is_own_neighbor periodic e f p = Ok false ->
  exists s', fill_dofs periodic e f p s = Ok s' /\ fill_ok n p s s'.
Proof.
  intros W O. unfold fill_dofs. change (n_dofs D1 e) with n. set (s0 := store p (entry n s p) s).
  assert (W0 : wf n s0) by (apply wf_store; auto; apply entry_len; auto).
  assert (E0 : forall q k, slot s0 q k = slot s q k) by (intros; apply slot_touch; auto).
  destruct (full (entry n s p)) eqn:F.
  - exists s0. split; auto. apply (fill_ok_ext p s0 s s0 E0 eq_refl). split; auto. split; auto. split; auto. split; auto.
    assert (G : forall k, (k < n)%nat -> slot s0 p k <> None) by (intros k L; rewrite E0; apply full_slots; auto).
    split; [intros k L H; exfalso; apply (G k L H)|]. split; [intros d H; exfalso; clear - H; lia|].
    intros k j d _ H2 _ H4. exfalso. congruence.
  - rewrite O. cbn [bind]. exists (fill_plain n p s0). split; auto. apply (fill_ok_ext p s0 s _ E0 eq_refl).
    apply fill_facts; auto.
Qed.
Lemma own_false p x : fget f p = Some x -> is_own_neighbor periodic e f p = Ok false.
Proof.
  intro E. unfold is_own_neighbor. rewrite Hcont. cbn [negb]. rewrite andb_true_r.
  assert (PC : periodic = true \/ periodic = false) by (clear; destruct periodic; auto). destruct PC as [P|P]; [|rewrite P; auto].
  assert (Hx : here p) by (unfold here; congruence). assert (D : data p = n_data x) by (unfold data; rewrite E; auto).
  pose proof (bounds p Hx) as B. rewrite D in B.
  assert (NW : fst (n_data x) == a -> snd (n_data x) == b -> False) by (rewrite <- D; apply (not_whole p P Hx)).
  rewrite P. cbn [fold_res].
  assert (L : exists q, neighbor_phys true f None 0 p = Ok (Some q) /\ q <> p).
  { destruct (phys_left f None a b HG Logic.I HT true p x E Logic.I) as [[_ [q [c [H1 [H2 [_ H3]]]]]]|[H0 [_ H]]].
    - exists q. split; auto. intros ->. assert (c = x) by congruence. subst. lra.
    - destruct (H eq_refl) as [q [c [H1 [H2 [_ H3]]]]]. exists q. split; auto. intros ->. assert (c = x) by congruence. subst. auto. }
  assert (R : exists q, neighbor_phys true f None 1 p = Ok (Some q) /\ q <> p).
  { destruct (phys_right f None a b HG Logic.I HT true p x E Logic.I) as [[_ [q [c [H1 [H2 [_ H3]]]]]]|[H0 [_ H]]].
    - exists q. split; auto. intros ->. assert (c = x) by congruence. subst. lra.
    - destruct (H eq_refl) as [q [c [H1 [H2 [_ H3]]]]]. exists q. split; auto. intros ->. assert (c = x) by congruence. subst. auto. }
  destruct L as [q [-> L]]. destruct R as [r [-> R]]. cbn [bind]. destruct (path_dec q p); [congruence|]. cbn [bind].
  destruct (path_dec r p); [congruence|]. reflexivity.
Qed.
(** ** sharing with the neighbours *)
Lemma vertex_dofs_c s p v : wf n s -> (v < 2)%nat -> vertex_dofs e s p v = [slot s p v].
Proof.
  intros W L. unfold vertex_dofs. replace (dpv e) with 1%nat by (clear - Hcont; destruct e; try discriminate; reflexivity).
  rewrite Nat.mul_1_r. change (n_dofs D1 e) with n.
  assert (E := entry_nth_error n s p v W ltac:(pose proof n_pos; lia)). apply nth_error_split in E. destruct E as [l1 [l2 [E1 <-]]].
  rewrite E1, skipn_app, skipn_all, Nat.sub_diag. reflexivity.
Qed.
Lemma assign_vertex_c s q w o : assign_vertex e q w [o] s = Ok (assign_pos n q [(w, o)] s).
Proof.
  unfold assign_vertex. replace (dpv e) with 1%nat by (clear - Hcont; destruct e; try discriminate; reflexivity).
  cbn [length Nat.eqb seq combine]. rewrite Nat.mul_1_r. reflexivity.
Qed.
Lemma down_ok c : (c < 2)%nat -> forall d p x, p <> [] -> fget f p = Some x ->
  exists r, down_to c None d p x = Ok r /\ (forall q, r = Some q -> length q = (length p + d)%nat).
Proof.
  intros Lc. induction d as [|d IH]; intros p x Hp E; cbn [down_to].
  - exists (Some p). split; auto. intros q H. injection H as <-. lia.
  - destruct (has_children x None) eqn:HC; [|exists None; split; [auto|discriminate]].
    unfold has_children in HC. apply existsb_exists in HC. destruct HC as [o [Ho Bo]]. destruct o as [y|]; [|discriminate].
    apply In_nth_error in Ho. destruct Ho as [j Hj].
    destruct (family_member f HG x p j y c E Hj) as [k [Ek _]]; [rewrite (HU p x E); auto|]. rewrite Ek.
    destruct (IH (p ++ [c]) k) as [r [R1 R2]]; [destruct p; discriminate|eapply fget_kid; eauto|].
    exists r. split; auto. intros q H. rewrite (R2 q H), app_length. cbn. lia.
Qed.
Lemma left_last p i : at_left_end p = true -> p = removelast p ++ [S i] -> False.
Proof.
  intros H E. rewrite E in H. clear E. induction (removelast p) as [|j r IH]; cbn in H; [discriminate|].
  apply andb_true_iff in H. destruct H; auto.
Qed.
Lemma right_below : forall r p t, p <> [] -> fget f p = Some t -> last_below t r = true -> Forall (eq 1%nat) r.
Proof.
  induction r as [|j r IH]; intros p t Hp E H; [constructor|]. cbn [last_below] in H. apply andb_true_iff in H. destruct H as [H1 H2].
  rewrite (HU p t E) in H1. apply Nat.eqb_eq in H1. assert (j = 1%nat) by lia. subst j.
  destruct (nth_error (n_slots t) 1) as [[k|]|] eqn:Ek; try discriminate. constructor; auto.
  eapply (IH (p ++ [1%nat]) k); auto; [destruct p; discriminate|eapply fget_kid; eauto].
Qed.
Lemma siblings_2 q i : q <> [] -> here (q ++ [i]) -> n_siblings f (q ++ [i]) = 2%nat.
Proof.
  intros Hq H. unfold n_siblings. rewrite removelast_snoc. destruct q as [|z q]; [congruence|].
  destruct (kid_facts (z :: q) i Hq H) as [Hz _]. destruct (here_data _ Hz) as [x [Ex _]]. rewrite Ex. eapply HU; eauto.
Qed.
Lemma right_last q i : here (q ++ [i]) -> at_right_end f (q ++ [i]) = true -> S i = n_siblings f (q ++ [i]).
Proof.
  intros H R. destruct q as [|z q].
  - cbn [app] in *. unfold at_right_end in R. apply andb_true_iff in R. destruct R as [R _]. apply Nat.eqb_eq in R. exact R.
  - rewrite siblings_2 by (auto; discriminate). unfold at_right_end in R. cbn [app] in R. apply andb_true_iff in R. destruct R as [_ R].
    destruct (nth_error f z) as [t|] eqn:Et; [|discriminate].
    assert (F := right_below (q ++ [i]) [z] t ltac:(discriminate) ltac:(cbn; rewrite Et; reflexivity) R).
    apply Forall_app in F. destruct F as [_ F]. inversion F; subst. reflexivity.
Qed.
Lemma adj_last q i c : adj c (q ++ [i]) -> (i <> 0%nat \/ q = [] /\ periodic = true).
Proof.
  intros [[r [j [-> [E _]]]]|[P [-> [E _]]]].
  - apply snoc_inj in E. destruct E as [_ ->]. left. discriminate.
  - right. change [0%nat] with ([] ++ [0%nat]) in E. apply snoc_inj in E. tauto.
Qed.
Lemma share_left s p : wf n s -> here p ->
  exists s', share_vertex periodic e f p s 0 = Ok s' /\
   ((exists c, adj c p /\ s' = assign_pos n c [(1%nat, slot s p 0)] s) \/ ((forall c, ~ adj c p) /\ s' = s)).
Proof.
  intros W Hp. destruct (exists_last (here_ne p Hp)) as [q [i ->]]. unfold share_vertex. rewrite vertex_dofs_c by (auto; lia).
  cbn [length Nat.eqb]. unfold neighbor_level. cbn [Nat.eqb]. unfold previous_of, sibling. rewrite last_snoc, removelast_snoc.
  assert (AE : at_periodic_end periodic f 0 (q ++ [i]) = periodic && at_left_end (q ++ [i])) by reflexivity. rewrite AE. clear AE.
  destruct i as [|i].
  - destruct (periodic && at_left_end (q ++ [0%nat])) eqn:PL.
    + apply andb_true_iff in PL. destruct PL as [P L]. pose proof (HP P) as HP2.
      assert (HL : here [(length f - 1)%nat]) by (apply roots_here; lia).
      destruct (here_data _ HL) as [t [Et _]]. rewrite Et. rewrite app_length. cbn [length].
      destruct (down_ok 0 ltac:(lia) (length q + 1 - 1) [(length f - 1)%nat] t ltac:(discriminate) Et) as [r [R1 R2]]. rewrite R1. cbn [bind].
      destruct q as [|z q].
      * cbn in R1. injection R1 as <-. cbn [periodic_pair Nat.eqb]. unfold periodic_pair. cbn [Nat.eqb].
        destruct (path_dec [(length f - 1)%nat] [(length f - 1)%nat]); [|congruence]. rewrite assign_vertex_c.
        eexists. split; [reflexivity|]. left. exists [(length f - 1)%nat]. split; auto. right. auto.
      * destruct r as [r|].
        -- unfold periodic_pair. cbn [Nat.eqb]. specialize (R2 r eq_refl). cbn [length] in R2.
           destruct (path_dec [(length f - 1)%nat] r) as [<-|]; [cbn in R2; lia|]. eexists. split; [reflexivity|]. right. split; auto.
           intros c A. apply adj_last in A. destruct A as [A|[A _]]; [congruence|discriminate].
        -- eexists. split; [reflexivity|]. right. split; auto.
           intros c A. apply adj_last in A. destruct A as [A|[A _]]; [congruence|discriminate].
    + cbn [bind]. eexists. split; [reflexivity|]. right. split; auto.
      intros c A. apply adj_last in A. destruct A as [A|[-> A]]; [congruence|]. rewrite A in PL. discriminate.
  - cbn [bind]. replace (at_left_end (q ++ [S i])) with false.
    2:{ symmetry. destruct (at_left_end (q ++ [S i])) eqn:L; auto. exfalso. apply (left_last _ i L). rewrite removelast_snoc. auto. }
    rewrite andb_false_r. cbn [Nat.sub]. rewrite assign_vertex_c. eexists. split; [reflexivity|]. left. exists (q ++ [i]). split; auto.
    left. exists q, i. split; auto. split; auto. split; auto. destruct q as [|z q].
    + cbn [app] in *. apply roots_here in Hp. apply roots_here. lia.
    + destruct (kid_facts (z :: q) (S i) ltac:(discriminate) Hp) as [_ [L [_ K]]]. apply K. lia.
Qed.
Lemma adj_next q i c : here (q ++ [i]) -> adj (q ++ [i]) c -> (S i < n_siblings f (q ++ [i]))%nat \/ q = [] /\ periodic = true /\ c = [0%nat] /\ S i = length f.
Proof.
  intros H [[r [j [E [-> [_ H2]]]]]|[P [E [-> _]]]].
  - apply snoc_inj in E. destruct E as [-> ->]. left. destruct r as [|z r].
    + cbn [app] in *. apply roots_here in H2. exact H2.
    + rewrite siblings_2 by (auto; discriminate). apply (kid_facts (z :: r) (S j)); auto. discriminate.
  - right. change [(length f - 1)%nat] with ([] ++ [(length f - 1)%nat]) in E. apply snoc_inj in E. destruct E as [-> ->].
    cbn [app] in H. apply roots_here in H. split; auto. split; auto. split; auto. lia.
Qed.
Lemma share_right s p : wf n s -> here p ->
  exists s', share_vertex periodic e f p s 1 = Ok s' /\
   ((exists c, adj p c /\ s' = assign_pos n c [(0%nat, slot s p 1)] s) \/ ((forall c, ~ adj p c) /\ s' = s)).
Proof.
  intros W Hp. destruct (exists_last (here_ne p Hp)) as [q [i ->]]. unfold share_vertex. rewrite vertex_dofs_c by (auto; lia).
  cbn [length Nat.eqb]. unfold neighbor_level. cbn [Nat.eqb]. unfold next_of, sibling. rewrite last_snoc, removelast_snoc.
  assert (AE : at_periodic_end periodic f 1 (q ++ [i]) = periodic && at_right_end f (q ++ [i])) by reflexivity. rewrite AE. clear AE.
  destruct (Nat.ltb_spec (S i) (n_siblings f (q ++ [i]))) as [L|L].
  - cbn [bind]. replace (at_right_end f (q ++ [i])) with false.
    2:{ symmetry. destruct (at_right_end f (q ++ [i])) eqn:R; auto. pose proof (right_last q i Hp R). lia. }
    rewrite andb_false_r. cbn [Nat.sub]. rewrite assign_vertex_c. eexists. split; [reflexivity|]. left. exists (q ++ [S i]). split; auto.
    left. exists q, i. split; auto. split; auto. split; auto. destruct q as [|z q].
    + cbn [app] in *. apply roots_here. exact L.
    + rewrite siblings_2 in L by (auto; discriminate).
      destruct (kid_facts (z :: q) i ltac:(discriminate) Hp) as [_ [_ [_ K]]]. apply K. lia.
  - assert (NA : forall c, adj (q ++ [i]) c -> q = [] /\ periodic = true /\ c = [0%nat] /\ S i = length f).
    { intros c A. destruct (adj_next q i c Hp A); [lia|auto]. }
    destruct (periodic && at_right_end f (q ++ [i])) eqn:PL.
    + apply andb_true_iff in PL. destruct PL as [P R]. pose proof (HP P) as HP2.
      assert (HL : here [0%nat]) by (apply roots_here; lia).
      destruct (here_data _ HL) as [t [Et _]]. rewrite Et. rewrite app_length. cbn [length].
      destruct (down_ok 1 ltac:(lia) (length q + 1 - 1) [0%nat] t ltac:(discriminate) Et) as [r [R1 R2]]. rewrite R1. cbn [bind].
      destruct q as [|z q].
      * cbn in R1. injection R1 as <-. unfold periodic_pair. cbn [Nat.eqb].
        destruct (path_dec [0%nat] [0%nat]); [|congruence]. rewrite assign_vertex_c.
        eexists. split; [reflexivity|]. left. exists [0%nat]. split; auto. right. cbn [app] in *.
        assert (i = (length f - 1)%nat).
        { unfold at_right_end in R. apply andb_true_iff in R. destruct R as [R _]. apply Nat.eqb_eq in R. lia. }
        subst i. auto.
      * destruct r as [r|].
        -- unfold periodic_pair. cbn [Nat.eqb]. specialize (R2 r eq_refl). cbn [length] in R2.
           destruct (path_dec [0%nat] r) as [<-|]; [cbn in R2; lia|]. eexists. split; [reflexivity|]. right. split; auto.
           intros c A. apply NA in A. destruct A; discriminate.
        -- eexists. split; [reflexivity|]. right. split; auto. intros c A. apply NA in A. destruct A; discriminate.
    + cbn [bind]. eexists. split; [reflexivity|]. right. split; auto.
      intros c A. apply NA in A. destruct A as [-> [P [-> SI]]]. rewrite P in PL. cbn [app] in *.
      unfold at_right_end in PL. cbn [andb] in PL. rewrite (proj2 (Nat.eqb_eq (S i) (length f)) SI) in PL. destruct (nth_error f i) eqn:EI; [discriminate|].
      apply nth_error_None in EI. lia.
Qed.

Lemma assign_one s q w o r k : wf n s -> (w < n)%nat ->
  slot (assign_pos n q [(w, o)] s) r k = match slot s r k with Some d => Some d | None => if path_dec r q then (if (w =? k)%nat then o else None) else None end.
Proof.
  intros W L. rewrite assign_slot by auto. destruct (slot s r k); auto. destruct (path_dec r q); auto.
  rewrite given_cons. cbn [given fold_left]. destruct (Nat.ltb_spec k n) as [H|H].
  - destruct (w =? k)%nat; destruct o; auto.
  - destruct (Nat.eqb_spec w k); [lia|auto].
Qed.
(** what sharing with the neighbours does *)
Lemma share_neighbors_ok s p : wf n s -> here p ->
  exists s', share_neighbors periodic e f p s = Ok s' /\ copies n same s s' /\
   (forall c, adj c p -> slot s' c 1 = match slot s c 1 with Some d => Some d | None => slot s p 0 end) /\
   (forall c, adj p c -> slot s' c 0 = match slot s c 0 with Some d => Some d | None => slot s p 1 end) /\
   (forall q k, ~ (adj q p /\ k = 1%nat) -> ~ (adj p q /\ k = 0%nat) -> slot s' q k = slot s q k).
Proof.
  intros W Hp. unfold share_neighbors. rewrite Hcont. cbn [fold_res]. pose proof n_pos as NP.
  destruct (share_left s p W Hp) as [s1 [E1 C1]]. rewrite E1. cbn [bind].
  assert (A1 : copies n same s s1 /\ (forall k, slot s1 p k = slot s p k) /\
    (forall c, adj c p -> slot s1 c 1 = match slot s c 1 with Some d => Some d | None => slot s p 0 end) /\
    (forall q k, ~ (adj q p /\ k = 1%nat) -> slot s1 q k = slot s q k)).
  { destruct C1 as [[c [A ->]]|[N ->]].
    - pose proof (adj_neq _ _ A) as Ne. split; [|split; [|split]].
      + apply assign_copies; auto. intros k d [H|[]] _ _. injection H as <- H. exists p, 0%nat. split; auto. apply same_sym, adj_same; auto.
      + intro k. rewrite assign_one by (auto; lia). destruct (slot s p k); auto. destruct (path_dec p c); congruence.
      + intros c' A'. rewrite (adj_l p c' c A' A). rewrite assign_one by (auto; lia). destruct (slot s c 1); auto. destruct (path_dec c c); [|congruence]. reflexivity.
      + intros q k H. rewrite assign_one by (auto; lia). destruct (slot s q k); auto. destruct (path_dec q c) as [->|]; auto.
        destruct (Nat.eqb_spec 1 k) as [<-|]; auto. exfalso. apply H. auto.
    - split; [apply copies_refl; auto|]. split; auto. split; [intros c A; exfalso; eapply N; eauto|auto]. }
  destruct A1 as [CP1 [P1 [L1 O1]]]. assert (W1 : wf n s1) by apply CP1.
  destruct (share_right s1 p W1 Hp) as [s2 [E2 C2]]. rewrite E2. cbn [bind].
  exists s2. split; auto. rewrite P1 in C2.
  destruct C2 as [[c [A ->]]|[N ->]].
  - pose proof (adj_neq _ _ A) as Ne.
    assert (SL : forall q k, slot (assign_pos n c [(0%nat, slot s p 1)] s1) q k = match slot s1 q k with Some d => Some d | None => if path_dec q c then if (0 =? k)%nat then slot s p 1 else None else None end).
    { intros q k. apply assign_one; auto. lia. }
    split; [|split; [|split]].
    + apply (copies_trans n same s s1); auto; [apply same_trans|]. apply assign_copies; auto.
      intros k d [H|[]] _ _. injection H as <- H. exists p, 1%nat. split; [rewrite P1; auto|]. apply adj_same; auto.
    + intros c' A'. rewrite SL, (L1 c' A'). destruct (slot s c' 1); auto. destruct (slot s p 0); auto. destruct (path_dec c' c); auto.
    + intros c' A'. rewrite (adj_r p c' c A' A). rewrite SL, O1 by (intros [_ X]; discriminate). destruct (slot s c 0); auto.
      destruct (path_dec c c); [|congruence]. reflexivity.
    + intros q k H1 H2. rewrite SL, O1 by auto. destruct (slot s q k); auto. destruct (path_dec q c) as [->|]; auto.
      destruct (Nat.eqb_spec 0 k) as [<-|]; auto. exfalso. apply H2. auto.
  - split; auto. split; auto. split; [intros c A; exfalso; eapply N; eauto|auto].
Qed.
(** ** sharing with the children *)
Lemma middle_in i j : (i < 2)%nat -> In (j, (1 - i)%nat) (inh1 i) -> In (j, i) (inh1 (1 - i)).
Proof.
  intros L H. unfold inh1 in *.
  assert (A : forallb (fun i => forallb (fun a => negb (snd a =? 1 - i)%nat || existsb (fun b => (fst b =? fst a)%nat && (snd b =? i)%nat) (inherited (ref1 e) (1 - i)))
     (inherited (ref1 e) i)) (seq 0 2) = true) by (clear - Hcont; destruct e; try discriminate Hcont; vm_compute; reflexivity).
  rewrite seq_all in A. specialize (A i L). rewrite forallb_forall in A. specialize (A _ H). cbn [fst snd] in A. rewrite Nat.eqb_refl in A.
  apply existsb_exists in A. destruct A as [[j' k'] [HI E]]. cbn [fst snd] in E. apply andb_true_iff in E. rewrite !Nat.eqb_eq in E. destruct E as [-> ->]. auto.
Qed.
Lemma kid_in p x i : p <> [] -> fget f p = Some x -> here (p ++ [i]) -> In (p ++ [i]) (map fst (kids_of p x)).
Proof.
  intros Hp E H. destruct (here_data _ H) as [c [Ec _]]. destruct (parent_of f p i c Hp Ec) as [y [Ey Ei]].
  assert (y = x) by congruence. subst y. apply in_map_iff. exists (p ++ [i], c). split; auto. apply in_kids_of. exists i. auto.
Qed.
Lemma kid_out p x q : fget f p = Some x -> In q (map fst (kids_of p x)) -> exists i, q = p ++ [i] /\ here q.
Proof.
  intros E H. apply in_map_iff in H. destruct H as [[q' c] [<- H]]. apply in_kids_of in H. destruct H as [i [-> Hc]].
  exists i. split; auto. unfold here. cbn [fst]. rewrite (fget_kid f p x i c E Hc). discriminate.
Qed.
Lemma share_children_inv s p x : inv s -> fget f p = Some x -> complete s p -> 
  inv (share_children n inh1 p x s) /\ keeps' s (share_children n inh1 p x s) /\ shared (share_children n inh1 p x s) p.
Proof.
  intros I E C. pose proof I as [B [CL [I3 [I4 I5]]]]. assert (W : wf n s) by apply B.
  assert (Hp : here p) by (unfold here; congruence). pose proof (here_ne p Hp) as Np.
  set (s' := share_children n inh1 p x s).
  assert (CP : copies n same s s').
  { apply children_copies; auto. intros i j k c Hc HI. unfold same. left. cbn [fst snd]. unfold pos.
    assert (Hk : here (p ++ [i])) by (unfold here; rewrite (fget_kid f p x i c E Hc); discriminate).
    destruct (kid_facts p i Np Hk) as [_ [Li [-> _]]]. apply inh_place; auto. }
  assert (CL' : classes same s') by (eapply classes_copies; [exact same_refl|exact same_sym|exact same_trans|exact CL|exact CP]).
  destruct CP as [W' [CN [K CC]]].
  assert (SL : forall q k, slot s' q k = match slot s q k with Some d => Some d | None =>
    if in_dec path_dec q (map fst (kids_of p x)) then (if (k <? n)%nat then given (map (fun jk => (snd jk, slot s p (fst jk))) (inh1 (last q 0%nat))) k else None) else None end).
  { intros. apply share_children_slot; auto. }
  assert (C' : complete s' p) by (eapply complete_keeps; eauto).
  assert (SH : shared s' p).
  { split; auto. intros i k k' Hi HI. destruct (kid_facts p i Np Hi) as [_ [Li [D _]]]. destruct (inh_bound e i k k' Li HI) as [L1 L2].
    assert (S1 : slot s' (p ++ [i]) k' <> None).
    { rewrite SL. destruct (slot s (p ++ [i]) k'); [discriminate|]. destruct (in_dec path_dec _ _) as [_|N]; [|exfalso; apply N; apply kid_in; auto].
      rewrite (proj2 (Nat.ltb_lt k' n) L2). rewrite last_snoc.
      destruct (slot s p k) as [d|] eqn:Ed; [|exfalso; apply (C k L1 Ed)].
      destruct (given_ex (map (fun jk => (snd jk, slot s p (fst jk))) (inh1 i)) k' d) as [d' ->]; [|discriminate].
      apply in_map_iff. exists (k, k'). cbn [fst snd]. rewrite Ed. auto. }
    destruct (slot s' (p ++ [i]) k') as [d1|] eqn:E1; [|congruence].
    destruct (slot s' p k) as [d2|] eqn:E2; [|exfalso; apply (C' k L1 E2)].
    f_equal. apply (CL' _ _ _ _ _ _ E1 E2). left. cbn [fst snd]. unfold pos. rewrite D. symmetry. apply inh_place; auto. }
  assert (OUT : forall q k d, slot s' q k = Some d -> slot s q k = Some d \/ (exists i, q = p ++ [i] /\ here q /\ exists j, In (j, k) (inh1 i))).
  { intros q k d H. rewrite SL in H. destruct (slot s q k) as [d'|]; [left; auto|]. right.
    destruct (in_dec path_dec q _) as [HI|]; [|discriminate]. destruct (kid_out p x q E HI) as [i [-> Hq]]. exists i. split; auto. split; auto.
    destruct (k <? n)%nat; [|discriminate]. apply given_in in H. rewrite last_snoc in H. apply in_map_iff in H. destruct H as [[j k'] [H1 H2]].
    cbn [fst snd] in H1. injection H1 as -> _. eauto. }
  assert (NN : forall q i, (p ++ [i] <> q) -> ~ (exists j, q = p ++ [j]) -> forall k, slot s' q k = slot s q k).
  { intros q i _ N k. rewrite SL. destruct (slot s q k); auto. destruct (in_dec path_dec q _) as [HI|]; auto. exfalso. apply N.
    destruct (kid_out p x q E HI) as [j [-> _]]. eauto. }
  split; [|split; auto].
  split; [eapply copies_base; eauto; split; [exact W'|split; [exact CN|split; [exact K|exact CC]]]|]. split; [auto|]. split; [|split].
  - intros q k d H. destruct (OUT q k d H) as [H'|[i [_ [H' _]]]]; eauto.
  - (* adjacent *)
    intros c c' A.
    assert (CS : (exists i, c = p ++ [i]) \/ (exists i, c' = p ++ [i]) \/ ((~ exists i, c = p ++ [i]) /\ (~ exists i, c' = p ++ [i]))).
    { assert (DD : forall q, (exists i, q = p ++ [i]) \/ ~ exists i, q = p ++ [i]).
      { intro q. destruct q as [|z q]; [right; intros [i X]; destruct p; discriminate|].
        destruct (exists_last (l := z :: q)) as [r [i Er]]; [discriminate|]. rewrite Er. clear Er.
        destruct (path_dec r p) as [->|N]; [left; eauto|]. right. intros [j X]. apply snoc_inj in X. tauto. }
      destruct (DD c); auto. destruct (DD c'); auto. }
    assert (PAIR : here (p ++ [0%nat]) -> here (p ++ [1%nat]) -> adj (p ++ [0%nat]) (p ++ [1%nat]) -> slot s' (p ++ [0%nat]) 1 = slot s' (p ++ [1%nat]) 0).
    { intros H0 H1 A0. pose proof (I4 _ _ A0) as J.
      destruct (slot s (p ++ [0%nat]) 1) as [d|] eqn:D0.
      { rewrite (K _ _ _ D0). symmetry. apply K. auto. }
      destruct (slot s' (p ++ [0%nat]) 1) as [d|] eqn:F0.
      - destruct (OUT _ _ _ F0) as [X|[i [Ei [_ [j HI]]]]]; [congruence|]. apply snoc_inj in Ei. destruct Ei as [_ <-].
        pose proof (middle_in 0 j ltac:(lia) HI) as HI'. cbn in HI'.
        rewrite <- F0. rewrite (proj2 SH 0%nat j 1%nat H0 HI), (proj2 SH 1%nat j 0%nat H1 HI'). auto.
      - destruct (slot s' (p ++ [1%nat]) 0) as [d|] eqn:F1; auto.
        destruct (OUT _ _ _ F1) as [X|[i [Ei [_ [j HI]]]]]; [congruence|]. apply snoc_inj in Ei. destruct Ei as [_ <-].
        pose proof (middle_in 1 j ltac:(lia) HI) as HI'. cbn in HI'.
        rewrite <- F0, <- F1. rewrite (proj2 SH 0%nat j 1%nat H0 HI'), (proj2 SH 1%nat j 0%nat H1 HI). auto. }
    destruct CS as [[i ->]|[[i ->]|[N1 N2]]].
    + pose proof A as A0. destruct A as [[q [j [X [-> [H1 H2]]]]]|[_ [X _]]].
      * apply snoc_inj in X. destruct X as [<- ->]. destruct (kid_facts p _ Np H2) as [_ [L _]]. assert (j = 0%nat) by lia. subst j.
        apply PAIR; auto.
      * exfalso. change [(length f - 1)%nat] with ([] ++ [(length f - 1)%nat]) in X. apply snoc_inj in X. tauto.
    + pose proof A as A0. destruct A as [[q [j [-> [X [H1 H2]]]]]|[_ [_ [X _]]]].
      * apply snoc_inj in X. destruct X as [<- ->]. destruct (kid_facts p _ Np H2) as [_ [L _]]. assert (j = 0%nat) by lia. subst j.
        apply PAIR; auto.
      * exfalso. change [0%nat] with ([] ++ [0%nat]) in X. apply snoc_inj in X. tauto.
    + assert (U : forall q, ~ (exists i, q = p ++ [i]) -> forall k, slot s' q k = slot s q k).
      { intros q N. apply (NN q 0%nat); auto. intro X. apply N. eauto. }
      rewrite !U by auto. auto.
  - intros q i k d Hq H. destruct (OUT _ _ _ H) as [H'|[j [X _]]].
    + eapply shared_keeps; eauto.
    + apply snoc_inj in X. destruct X as [-> _]. auto.
Qed.

(** ** one round *)
Lemma keeps_refl s : keeps' s s. Proof. intros p k d H. auto. Qed.
Lemma keeps_trans s1 s2 s3 : keeps' s1 s2 -> keeps' s2 s3 -> keeps' s1 s3.
Proof. intros H1 H2 p k d H. auto. Qed.
Lemma process_ok sf s p x : inv s -> fget f p = Some x -> ready s p ->
  exists s', process periodic e f sf s (p, x) = Ok s' /\ inv s' /\ keeps' s s' /\ complete s' p /\ (has_children x sf = true -> shared s' p).
Proof.
  intros I E R. pose proof I as [B [CL [I3 [I4 I5]]]]. assert (W : wf n s) by apply B.
  assert (Hp : here p) by (unfold here; congruence). pose proof (here_ne p Hp) as Np. pose proof n_pos as NP.
  unfold process. cbn [fst snd].
  destruct (fill_dofs_ok s p W (own_false p x E)) as [s1 [E1 F]]. rewrite E1. cbn [bind].
  pose proof (fill_keeps _ _ _ _ F) as K1. assert (C1 : complete s1 p) by (intros k L; eapply fill_complete; eauto).
  assert (W1 : wf n s1) by apply F.
  destruct (share_neighbors_ok s1 p W1 Hp) as [s2 [E2 [CP [L2 [R2 O2]]]]]. rewrite E2. cbn [bind].
  assert (B1 : base_inv n s1) by (eapply fill_base; eauto).
  assert (CL1 : classes same s1).
  { eapply classes_fill; [exact same_refl|exact same_sym|exact B|exact CL|exact F| |].
    - intros k j Lk Lj H. apply (same_slots p k j Hp Lk Lj H).
    - intros k q j d Lk H Sm. eapply cover; eauto. }
  assert (U1 : forall q k, q <> p -> slot s1 q k = slot s q k) by apply F.
  assert (K2 : keeps' s1 s2) by apply CP.
  assert (I2 : inv s2).
  { split; [eapply copies_base; eauto|].
    split; [eapply classes_copies; [exact same_refl|exact same_sym|exact same_trans|exact CL1|exact CP]|].
    assert (OLD : forall q k d, slot s2 q k = Some d -> (exists d', slot s q k = Some d') \/ q = p \/ adj q p \/ adj p q).
    { intros q k d H. destruct (path_dec q p) as [->|N]; [auto|].
      destruct CP as [_ [_ [_ CP]]]. destruct (CP q k d H) as [H1|[H1 _]]; [left; rewrite U1 in H1 by auto; eauto|].
      destruct (Nat.eq_dec k 1) as [->|N1]; [|destruct (Nat.eq_dec k 0) as [->|N0]].
      - right. right. left.
        assert (D : adj q p \/ slot s2 q 1 = slot s1 q 1).
        { destruct (share_left s1 p W1 Hp) as [t [_ [[c [A _]]|[NA _]]]].
          - destruct (path_dec q c) as [->|Nc]; [auto|]. right. apply O2; intros [A' X]; [|discriminate]. apply Nc. apply (adj_l p q c A' A).
          - right. apply O2; intros [A' X]; [|discriminate]. apply (NA q A'). }
        destruct D as [D|D]; auto. congruence.
      - right. right. right.
        assert (D : adj p q \/ slot s2 q 0 = slot s1 q 0).
        { destruct (share_right s1 p W1 Hp) as [t [_ [[c [A _]]|[NA _]]]].
          - destruct (path_dec q c) as [->|Nc]; [auto|]. right. apply O2; intros [A' X]; [discriminate|]. apply Nc. apply (adj_r p q c A' A).
          - right. apply O2; intros [A' X]; [discriminate|]. apply (NA q A'). }
        destruct D as [D|D]; auto. congruence.
      - exfalso. rewrite O2 in H by (intros [_ X]; congruence). congruence. }
    split; [|split].
    - intros q k d H. destruct (OLD q k d H) as [[d' H']|[->|[A|A]]]; [eauto|auto|apply (adj_here _ _ A)|apply (adj_here _ _ A)].
    - intros c c' A. pose proof (I4 c c' A) as J. pose proof (adj_neq _ _ A) as Ncc.
      destruct (path_dec c' p) as [->|N1].
      + rewrite (L2 c A). rewrite U1 by auto. rewrite (O2 p 0%nat) by (intros [X Y]; first [discriminate|apply (adj_neq _ _ X); auto]).
        destruct (slot s c 1) as [d|] eqn:Ec; auto. symmetry. apply K1. auto.
      + destruct (path_dec c p) as [->|N2].
        * rewrite (R2 c' A). rewrite (U1 c') by auto. rewrite (O2 p 1%nat) by (intros [X Y]; first [discriminate|apply (adj_neq _ _ X); auto]).
          rewrite <- J. destruct (slot s p 1) as [d|] eqn:Ec; auto.
        * rewrite (O2 c 1%nat), (O2 c' 0%nat).
          -- rewrite !U1 by auto. auto.
          -- intros [X Y]. discriminate.
          -- intros [X _]. apply N2. apply (adj_l c' c p A X).
          -- intros [X _]. apply N1. apply (adj_r c c' p A X).
          -- intros [X Y]. discriminate.
    - intros q i k d Hq H. apply (shared_keeps s s2 q); auto; [eapply keeps_trans; eauto|].
      destruct (OLD _ _ _ H) as [[d' H']|[Ep|[A|A]]]; [eauto|eapply R; eauto| |].
      + destruct A as [[r [j [X [Y _]]]]|[P [X _]]].
        * apply snoc_inj in X. destruct X as [-> ->]. eapply R; eauto.
        * exfalso. change [(length f - 1)%nat] with ([] ++ [(length f - 1)%nat]) in X. apply snoc_inj in X. tauto.
      + destruct A as [[r [j [X [Y _]]]]|[P [_ [X _]]]].
        * apply snoc_inj in Y. destruct Y as [-> ->]. eapply R; eauto.
        * exfalso. change [0%nat] with ([] ++ [0%nat]) in X. apply snoc_inj in X. tauto. }
  assert (C2 : complete s2 p) by (eapply complete_keeps; eauto).
  destruct (has_children x sf) eqn:HC.
  - destruct (share_children_inv s2 p x I2 E C2) as [J1 [J2 J3]]. exists (share_children n inh1 p x s2).
    split; [reflexivity|]. split; auto. split; [eapply keeps_trans; eauto; eapply keeps_trans; eauto|]. split; [apply J3|auto].
  - exists s2. split; [reflexivity|]. split; auto. split; [eapply keeps_trans; eauto|]. split; [auto|discriminate].
Qed.
(** ** the loop *)
Lemma loop_ok sf : submesh_rooted f sf -> forall l1 l2 s, l1 ++ l2 = ftraverse f sf BreadthFirst ->
  inv s -> (forall p x, In (p, x) l1 -> complete s p /\ (has_children x sf = true -> shared s p)) ->
  exists s', fold_res (process periodic e f sf) l2 s = Ok s' /\ inv s' /\ keeps' s s' /\
    (forall p x, In (p, x) (l1 ++ l2) -> complete s' p /\ (has_children x sf = true -> shared s' p)).
Proof.
  intros HR l1 l2. revert l1. induction l2 as [|[p x] l2 IH]; intros l1 s EL I H.
  - exists s. split; [reflexivity|]. split; auto. split; [apply keeps_refl|]. rewrite app_nil_r. auto.
  - assert (Hin : In (p, x) (ftraverse f sf BreadthFirst)) by (rewrite <- EL; apply in_or_app; right; left; auto).
    apply in_ftraverse in Hin. destruct Hin as [Ex Fx].
    assert (R : ready s p).
    { intros q i Ep Hq. assert (Ex' : fget f (q ++ [i]) = Some x) by (rewrite <- Ep; auto).
      destruct (parent_of f q i x Hq Ex') as [y [Ey Ei]].
      assert (Fy : fl_ok sf y) by (eapply (parent_fl f sf HR q i x y); eauto).
      assert (Lp : length p = S (length q)) by (rewrite Ep, app_length; cbn; lia).
      assert (Hy : In (q, y) (l1 ++ (p, x) :: l2)) by (rewrite EL; apply in_ftraverse; auto).
      apply in_app_or in Hy. destruct Hy as [Hy|[Hy|Hy]].
      - apply (H q y Hy). unfold has_children. apply existsb_exists. exists (Some x). split; [eapply nth_error_In; eauto|].
        unfold fl_ok in Fx. destruct sf; auto.
      - exfalso. injection Hy as Hy _. rewrite Hy in Lp. clear - Lp. lia.
      - exfalso. pose proof (ftraverse_sorted f sf BreadthFirst) as SS. cbv beta iota in SS. rewrite <- EL, map_app in SS.
        assert (S2 : Sorting.Sorted.StronglySorted levlt (map fst ((p, x) :: l2))).
        { clear - SS. revert SS. generalize (map fst ((p, x) :: l2)). intros l SS. induction (map fst l1); auto. inversion SS; auto. }
        cbn [map fst] in S2. inversion S2 as [|? ? _ FA]; subst. rewrite Forall_forall in FA. specialize (FA q (in_map fst _ _ Hy)).
        unfold levlt in FA. destruct FA as [FA|[FA _]]; lia. }
    destruct (process_ok sf s p x I Ex R) as [s1 [E1 [I1 [K1 [C1 S1]]]]]. cbn [fold_res]. rewrite E1. cbn [bind].
    destruct (IH (l1 ++ [(p, x)]) s1) as [s' [E' [I' [K' H']]]]; auto.
    + rewrite <- app_assoc. auto.
    + intros q y Hy. apply in_app_or in Hy. destruct Hy as [Hy|[Hy|[]]].
      * destruct (H q y Hy) as [A1 A2]. split; [eapply complete_keeps; eauto|]. intro HC. eapply shared_keeps; eauto.
        assert (In (q, y) (ftraverse f sf BreadthFirst)) by (rewrite <- EL; apply in_or_app; auto).
        intros ->. apply in_ftraverse in H0. destruct H0; discriminate.
      * injection Hy as <- <-. auto.
    + exists s'. split; auto. split; auto. split; [eapply keeps_trans; eauto|]. rewrite <- app_assoc in H'. auto.
Qed.
Lemma distribute_ok sf s : submesh_rooted f sf -> inv s ->
  exists s', distribute periodic e f sf s = Ok s' /\ inv s' /\ keeps' s s' /\ (forall p, in_sub f sf p -> complete s' p).
Proof.
  intros HR I. destruct (loop_ok sf HR [] (ftraverse f sf BreadthFirst) s eq_refl I) as [s' [E [I' [K H]]]]; [intros p x []|].
  exists s'. split; auto. split; auto. split; auto. intros p [x [Ex Fx]]. refine (proj1 (H p x _)). cbn [app]. apply in_ftraverse. auto.
Qed.
Lemma inv_empty : inv no_dofs.
Proof. split; [apply base_empty|]. repeat split; try (intros; discriminate). Qed.
End geom.

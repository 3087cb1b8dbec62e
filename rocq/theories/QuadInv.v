(** * Meshes of quadrilaterals under splitting: cells, sides and neighbours (for C28-C30) *)
From Coq Require Import List Arith Bool Lia QArith.
From Verif Require Import Tree Forest Geom SpecGeom Dcel Quad SpecForest TreeFacts ForestFacts QuadFacts QuadSplit.
Import ListNotations.
Open Scope nat_scope.

(** what a cell is made of, apart from labels and children *)
Definition info (f : forest (list nat)) (p : path) : option (list nat * nat * bool) :=
  option_map (fun n => (n_data n, length (n_slots n), m_regular (n_meta n))) (fget f p).
Definition here (m : mesh2) (p : path) : Prop := info (cells m) p <> None.
Definition side (m : mesh2) (p : path) (k : nat) : nat :=
  match info (cells m) p with Some (hs, _, _) => nth k hs 0 | None => 0 end.

Lemma here_fget m p : here m p <-> exists n, fget (cells m) p = Some n.
Proof.
  unfold here, info. destruct (fget (cells m) p) as [n|]; simpl; split; intros H; try congruence; eauto.
  destruct H; discriminate.
Qed.
Lemma here_dec m p : {here m p} + {~ here m p}.
Proof. unfold here. destruct (info (cells m) p); [left|right]; congruence. Qed.
Lemma info_obs f p f' p' : fobs f p = fobs f' p' -> info f p = info f' p'.
Proof.
  unfold fobs, info. destruct (fget f p) as [n|], (fget f' p') as [n'|]; simpl; try discriminate; auto.
  intros H. unfold obs in H. injection H as E1 E2 E3. rewrite E1, E2.
  f_equal. f_equal. f_equal. apply (f_equal (@length bool)) in E3. unfold slot_shape in E3. rewrite !map_length in E3. auto.
Qed.
Lemma not_here_below m p i q : p <> [] -> ~ here m (p ++ [i]) -> ~ here m (p ++ i :: q).
Proof.
  intros Np H. destruct p as [|r p]; [congruence|]. intros G. apply H. apply here_fget in G. destruct G as [n G].
  replace ((r :: p) ++ i :: q) with ((r :: p ++ [i]) ++ q) in G by (simpl; rewrite <- app_assoc; auto).
  rewrite fget_app in G. apply here_fget. change ((r :: p) ++ [i]) with (r :: p ++ [i]).
  destruct (fget (cells m) (r :: p ++ [i])); [eauto|discriminate].
Qed.
Lemma here_parent m p i : p <> [] -> here m (p ++ [i]) -> here m p.
Proof.
  intros Np G. apply here_fget in G. destruct G as [n G]. rewrite fget_snoc in G by auto. apply here_fget.
  destruct (fget (cells m) p); [eauto|discriminate].
Qed.
Lemma has_children_none {A} (n : node A) : has_children n None = false <-> forall i k, nth_error (n_slots n) i <> Some (Some k).
Proof.
  rewrite has_children_false. unfold fl_ok. split; [intros H i k E; apply (H i k); auto|intros H i k E _; apply (H i k E)].
Qed.

(** ** the cells after a split *)
Lemma split_info fl p m n N : p <> [] -> fget (cells m) p = Some n -> has_children n None = false -> length (n_slots n) = 4 ->
  m_regular (n_meta n) = true ->
  let f' := fupd p (fun _ => split_node fl N n) (cells m) in
  (forall i, i < 4 -> info f' (p ++ [i]) = Some (kid_hes N i, 4, true)) /\
  (forall q, (forall i r, i < 4 -> q <> p ++ i :: r) -> info f' q = info (cells m) q) /\
  (forall i j r, info f' (p ++ i :: j :: r) = None) /\
  (forall i r, info (cells m) (p ++ i :: r) = None).
Proof.
  intros Np Fp HC Sl Rg f'. rewrite has_children_none in HC.
  assert (Pn : forall i r, fget (cells m) (p ++ i :: r) = None).
  { intros i r. destruct p as [|a p]; [congruence|]. rewrite fget_app, Fp. simpl.
    destruct (nth_error (n_slots n) i) as [[k|]|] eqn:E; auto. exfalso; eapply HC; eauto. }
  assert (Bl : forall r, fget f' (p ++ r) = nget (split_node fl N n) r).
  { intros r. unfold f'. rewrite fget_fupd_below, Fp; auto. }
  split; [|split; [|split]].
  - intros i Li. unfold info. rewrite Bl. destruct n as [mt d sl]. simpl in Rg. unfold split_node.
    destruct i as [|[|[|[|i]]]]; try lia; destruct fl; simpl; reflexivity.
  - intros q Hq. destruct (prefix_dec p q) as [[r ->]|H1].
    + destruct r as [|i r].
      * rewrite app_nil_r in *. unfold info. rewrite <- (app_nil_r p) at 1. rewrite Bl, Fp. destruct n as [mt d sl]. simpl in *.
        rewrite Sl. unfold promote. destruct mt as [ty dp ad ps rg fs]. destruct ty; reflexivity.
      * unfold info. rewrite Pn, Bl. destruct n as [mt d sl]. unfold split_node. simpl.
        destruct i as [|[|[|[|i]]]]; try (exfalso; eapply Hq; [|reflexivity]; lia). simpl. destruct i; auto.
    + destruct (prefix_dec q p) as [[r ->]|H2].
      * destruct r as [|i r]; [exfalso; apply H1; rewrite app_nil_r; apply prefix_refl|].
        apply info_obs. unfold f'. apply fobs_fupd_above.
      * unfold info, f'. rewrite fget_fupd_off; auto.
  - intros i j r. unfold info. rewrite Bl. destruct n as [mt d sl]. unfold split_node.
    destruct i as [|[|[|[|i]]]]; try (destruct fl; simpl; destruct j as [|[|[|[|j]]]]; simpl; auto; destruct j; auto; fail).
    simpl. destruct i; auto.
  - intros i r. unfold info. rewrite Pn. auto.
Qed.

(** ** the invariant *)
Record sinv (m : mesh2) : Prop := {
  s_h : hinv (hp m);
  s_cell : forall p hs k b, info (cells m) p = Some (hs, k, b) -> good_cell (hp m) p hs /\ k = 4 /\ b = true;
  s_fam : forall p i, p <> [] -> here m (p ++ [i]) -> i < 4 /\ forall j, j < 4 -> here m (p ++ [j]);
  s_leaf : forall p, here m p -> (forall i, ~ here m (p ++ [i])) -> forall k, k < 4 -> K (hp m) (side m p k) = None;
  s_kids : forall p i, p <> [] -> here m (p ++ [i]) ->
    K (hp m) (side m p i) = Some (side m (p ++ [i]) i, side m (p ++ [(i + 1) mod 4]) i) /\
    T (hp m) (side m (p ++ [i]) ((i + 1) mod 4)) = Some (side m (p ++ [(i + 1) mod 4]) ((i + 3) mod 4)) /\
    P (hp m) (side m (p ++ [i]) ((i + 1) mod 4)) = None /\ P (hp m) (side m (p ++ [i]) ((i + 2) mod 4)) = None;
  s_root : forall r k, here m [r] -> k < 4 -> P (hp m) (side m [r] k) = None;
  s_all : forall h, h < nh (hp m) -> exists p k, here m p /\ k < 4 /\ h = side m p k }.

Lemma side_ext m m' p k : info (cells m') p = info (cells m) p -> side m' p k = side m p k.
Proof. unfold side. intros ->. auto. Qed.
Lemma here_ext m m' p : info (cells m') p = info (cells m) p -> here m' p <-> here m p.
Proof. unfold here. intros ->. tauto. Qed.
Lemma sinv_ext m m' : hp m' = hp m -> (forall p, info (cells m') p = info (cells m) p) -> sinv m -> sinv m'.
Proof.
  intros Eh Ei [a b c d e f g].
  assert (Es : forall p k, side m' p k = side m p k) by (intros; apply side_ext; auto).
  assert (Eh' : forall p, here m' p <-> here m p) by (intros; apply here_ext; auto).
  constructor; rewrite ?Eh; auto.
  - intros p hs k bb. rewrite Ei. auto.
  - intros p i Np Hi. rewrite Eh' in Hi. destruct (c p i Np Hi) as [c1 c2]. split; auto. intros j Lj. apply Eh'; auto.
  - intros p Hp Hn k Lk. rewrite Es. apply d; auto. apply Eh'; auto. intros i Hi. apply (Hn i). apply Eh'; auto.
  - intros p i Np Hi. rewrite !Es. apply e; auto. apply Eh'; auto.
  - intros r k Hr Lk. rewrite Es. apply f; auto. apply Eh'; auto.
  - intros h Lh. destruct (g h Lh) as [p [k [Hp [Lk E]]]]. exists p, k. rewrite Es, Eh'. auto.
Qed.

Lemma m4_lt k : k mod 4 < 4. Proof. apply Nat.mod_upper_bound. lia. Qed.
Global Hint Resolve m4_lt : core.

Section INV.
Context {m : mesh2} (I : sinv m).
Let s := hp m.

Lemma side_good p k : here m p -> k < 4 ->
  side m p k < nh s /\ C s (side m p k) = Some p /\ Hd s (side m p k) = B s (side m p ((k + 1) mod 4)) /\
  next (he s (side m p k)) = Some (side m p ((k + 1) mod 4)) /\ prev (he s (side m p k)) = Some (side m p ((k + 3) mod 4)).
Proof.
  unfold here, side. destruct (info (cells m) p) as [[[hs a] b]|] eqn:E; [|congruence]. intros _ Lk.
  destruct (s_cell m I p hs a b E) as [[_ [_ G]] _]. destruct (G k Lk) as [g1 [g2 [g3 [g4 g5]]]]. auto.
Qed.
Lemma side_inj p q k j : here m p -> here m q -> k < 4 -> j < 4 -> side m p k = side m q j -> p = q /\ k = j.
Proof.
  intros Hp Hq Lk Lj E. destruct (side_good p k Hp Lk) as [_ [C1 _]]. destruct (side_good q j Hq Lj) as [_ [C2 _]].
  rewrite E in C1. assert (p = q) by congruence. subst q. split; auto.
  unfold here, side in *. destruct (info (cells m) p) as [[[hs a] b]|] eqn:EI; [|congruence].
  destruct (s_cell m I p hs a b EI) as [[Ln [ND _]] _]. eapply NoDup_nth; eauto; lia.
Qed.
Lemma side_in_data p n k : fget (cells m) p = Some n -> nth k (n_data n) 0 = side m p k.
Proof. intros E. unfold side, info. rewrite E. auto. Qed.
Lemma data_sides p n : fget (cells m) p = Some n -> n_data n = map (side m p) [0; 1; 2; 3].
Proof.
  intros E. assert (EI : info (cells m) p = Some (n_data n, length (n_slots n), m_regular (n_meta n))) by (unfold info; rewrite E; auto).
  destruct (s_cell m I _ _ _ _ EI) as [[Ln _] _]. unfold side. rewrite EI. clear - Ln.
  destruct (n_data n) as [|a [|b [|c [|d [|]]]]]; simpl in Ln; try lia. reflexivity.
Qed.
Lemma path_nonempty p : here m p -> p <> [].
Proof. intros H ->. apply H. reflexivity. Qed.
End INV.

(** ** splitting preserves the invariant *)
Lemma cell_split_ok fl p m m' : sinv m -> cell_split fl p m = Ok m' ->
  exists n, fget (cells m) p = Some n /\ has_children n None = false /\
    split_heap p (hp m) (n_data n) (hp m') /\
    cells m' = fupd p (fun _ => split_node fl (nh (hp m)) n) (cells m) /\
    (forall i, i < 4 -> Qltb 0 (he_area (hp m') (kid_hes (nh (hp m)) i)) = true).
Proof.
  intros I E. pose proof E as E'. unfold cell_split in E'. destruct (fget (cells m) p) as [n|] eqn:Fp; [|discriminate].
  destruct (has_children n None) eqn:HC; [discriminate|]. clear E'.
  assert (EI : info (cells m) p = Some (n_data n, length (n_slots n), m_regular (n_meta n))) by (unfold info; rewrite Fp; auto).
  destruct (s_cell m I _ _ _ _ EI) as [G [Sl Rg]].
  assert (Hp : here m p) by (unfold here; congruence). pose proof (path_nonempty p Hp) as Np.
  pose proof (cell_split_spec fl p m n (s_h m I) Fp G Sl Rg HC) as Q. rewrite E in Q.
  exists n. split; auto. split; auto. apply Q. intros k Lk. rewrite (side_in_data p n k Fp).
  apply (s_leaf m I); auto. intros i Hi. apply Hi.
  destruct (split_info fl p m n 0 Np Fp HC Sl Rg) as [_ [_ [_ Z]]]. apply Z.
Qed.

Theorem split_sinv fl p m m' : sinv m -> cell_split fl p m = Ok m' -> sinv m' /\ ext (hp m) (hp m') /\
  here m p /\ (forall i, ~ here m (p ++ [i])) /\
  (forall q, here m q -> info (cells m') q = info (cells m) q) /\
  (forall q, here m' q <-> here m q \/ exists i, i < 4 /\ q = p ++ [i]) /\
  (forall i k, i < 4 -> side m' (p ++ [i]) k = nth k (kid_hes (nh (hp m)) i) 0).
Proof.
  intros I E. destruct (cell_split_ok fl p m m' I E) as [n [Fp [HC [S [EC AR]]]]].
  assert (EI : info (cells m) p = Some (n_data n, length (n_slots n), m_regular (n_meta n))) by (unfold info; rewrite Fp; auto).
  destruct (s_cell m I _ _ _ _ EI) as [G [Sl Rg]].
  assert (Hp : here m p) by (unfold here; congruence). pose proof (path_nonempty p Hp) as Np.
  set (N := nh (hp m)) in *.
  destruct (split_info fl p m n N Np Fp HC Sl Rg) as [In1 [In2 [In3 In4]]]. rewrite <- EC in In1, In2, In3.
  assert (Lf : forall i, ~ here m (p ++ [i])) by (intros i Hi; apply Hi; apply In4).
  assert (Old : forall q, here m q -> info (cells m') q = info (cells m) q).
  { intros q Hq. apply In2. intros i r Li ->. apply Hq. apply In4. }
  assert (Hr : forall q, here m' q <-> here m q \/ exists i, i < 4 /\ q = p ++ [i]).
  { intros q. split.
    - intros Hq. destruct (prefix_dec p q) as [[r ->]|H1].
      + destruct r as [|i [|j r]].
        * left. rewrite app_nil_r. auto.
        * destruct (Nat.lt_ge_cases i 4); [right; eauto|]. exfalso. apply Hq. rewrite In2; [apply In4|].
          intros i' r Li' E'. apply app_inv_head in E'. injection E' as <- _. lia.
        * exfalso. apply Hq. apply In3.
      + left. unfold here in *. rewrite <- In2; auto. intros i r _ ->. apply H1. exists (i :: r); auto.
    - intros [Hq|[i [Li ->]]]; unfold here.
      + rewrite Old; auto.
      + rewrite In1 by auto. congruence. }
  assert (So : forall q k, here m q -> side m' q k = side m q k) by (intros; apply side_ext; auto).
  assert (Sn : forall i k, i < 4 -> side m' (p ++ [i]) k = nth k (kid_hes N i) 0).
  { intros i k Li. unfold side. rewrite In1; auto. }
  assert (X : ext (hp m) (hp m')) by (apply S).
  assert (SP : forall k, k < 4 -> In (side m p k) (n_data n)).
  { intros k Lk. rewrite <- (side_in_data p n k Fp). apply nth_In. destruct G as [-> _]. auto. }
  assert (NIn : forall q k, here m q -> q <> p -> k < 4 -> ~ In (side m q k) (n_data n)).
  { intros q k Hq Nq Lk Iq. apply (In_nth _ _ 0) in Iq. destruct Iq as [j [Lj Ej]].
    rewrite (side_in_data p n j Fp) in Ej. destruct G as [GL _]. rewrite GL in Lj.
    apply (side_inj I p q j k) in Ej; auto. destruct Ej; congruence. }
  assert (Side : forall q k, here m q -> k < 4 -> side m q k < nh (hp m)) by (intros q k Hq Lk; apply (side_good I); auto).
  split; [|split; [auto|split; [auto|split; [auto|split; [auto|split; auto]]]]].
  constructor.
  - apply S.
  - intros q hs k b EQ. destruct (proj1 (Hr q)) as [Hq|[i [Li ->]]].
    { unfold here; congruence. }
    + rewrite Old in EQ by auto. destruct (s_cell m I _ _ _ _ EQ) as [[G1 [G2 G3]] G4]. split; auto.
      split; auto. split; auto. intros j Lj. destruct (G3 j Lj) as [g1 [g2 [g3 [g4 g5]]]].
      destruct (G3 ((j + 1) mod 4) ltac:(auto)) as [g6 _].
      destruct (p_links _ _ _ _ S (nth j hs 0) g1) as [l1 [l2 l3]]. rewrite l1, l2, l3, (e_h _ _ X), (e_b _ _ X) by auto.
      pose proof (e_nh _ _ X). split; [lia|]. auto.
    + rewrite In1 in EQ by auto. injection EQ as <- <- <-. split; auto.
      split; [apply kid_hes_length|]. split; [apply kid_hes_nodup|]. intros j Lj.
      pose proof (p_cell _ _ _ _ S i Li j Lj) as [c1 [c2 c3]]. fold N in c1, c2, c3.
      pose proof (kid_hes_range N i _ (kid_hes_nth_in N i j Lj)) as Rn.
      split; [rewrite (p_nh _ _ _ _ S); fold N; lia|]. split; auto. split; auto. split; auto.
      (* vertices join up *)
      assert (KK : forall a, a < 4 -> B (hp m') (N + 4 * a) = B (hp m') (side m p a) /\
                Hd (hp m') (N + 4 * a) = B (hp m') (N + 4 * a + 1) /\ Hd (hp m') (N + 4 * a + 1) = Hd (hp m') (side m p a)).
      { intros a La. pose proof (p_kids _ _ _ _ S a La) as Ka. rewrite (side_in_data p n a Fp) in Ka. fold N in Ka.
        assert (Lh : side m p a < nh (hp m')) by (pose proof (Side p a Hp La); pose proof (e_nh _ _ X); lia).
        destruct (i_k _ (p_inv _ _ _ _ S) _ _ _ Lh Ka) as [_ [_ [_ [_ [q1 [q2 [q3 _]]]]]]]. auto. }
      assert (JJ : forall a, a < 4 -> Hd (hp m') (side m p a) = B (hp m') (side m p ((a + 1) mod 4))).
      { intros a La. destruct (side_good I p a Hp La) as [Ls [_ [J _]]].
        rewrite (e_h _ _ X), (e_b _ _ X) by (auto; apply Side; auto). exact J. }
      destruct (KK 0 ltac:(lia)) as [v1 [v2 v3]]. destruct (KK 1 ltac:(lia)) as [v4 [v5 v6]].
      destruct (KK 2 ltac:(lia)) as [v7 [v8 v9]]. destruct (KK 3 ltac:(lia)) as [v10 [v11 v12]].
      destruct (p_up _ _ _ _ S 0 ltac:(lia)) as [_ [_ [_ [_ [_ [u1 [u2 [u3 u4]]]]]]]].
      destruct (p_up _ _ _ _ S 1 ltac:(lia)) as [_ [_ [_ [_ [_ [u5 [u6 [u7 u8]]]]]]]].
      destruct (p_up _ _ _ _ S 2 ltac:(lia)) as [_ [_ [_ [_ [_ [u9 [u10 [u11 u12]]]]]]]].
      destruct (p_up _ _ _ _ S 3 ltac:(lia)) as [_ [_ [_ [_ [_ [u13 [u14 [u15 u16]]]]]]]].
      pose proof (JJ 0 ltac:(lia)) as j0. pose proof (JJ 1 ltac:(lia)) as j1. pose proof (JJ 2 ltac:(lia)) as j2. pose proof (JJ 3 ltac:(lia)) as j3.
      simpl Nat.modulo in j0, j1, j2, j3. fold N in u1,u2,u3,u4,u5,u6,u7,u8,u9,u10,u11,u12,u13,u14,u15,u16.
      replace (N + 4 * 0) with N in * by lia. 
      replace (N + 4 * 1) with (N + 4) in * by lia. replace (N + 4 * 2) with (N + 8) in * by lia. replace (N + 4 * 3) with (N + 12) in * by lia.
      rewrite <- ?Nat.add_assoc in *. simpl Nat.add in *.
      destruct i as [|[|[|[|i]]]]; try lia; (destruct j as [|[|[|[|j]]]]; try lia; simpl Nat.modulo; unfold kid_hes; cbn [nth]; congruence).
  - intros q i Nq Hi. destruct (proj1 (Hr _) Hi) as [Hq|[j [Lj E']]].
    + destruct (s_fam m I q i Nq Hq) as [Li F]. split; auto. intros j Lj. apply Hr. left; auto.
    + apply app_inj_tail in E'. destruct E' as [-> ->]. split; auto. intros k Lk. apply Hr. right; eauto.
  - intros q Hq Hn k Lk. destruct (proj1 (Hr q) Hq) as [Ho|[i [Li ->]]].
    + assert (Nq : q <> p).
      { intros ->. apply (Hn 0). apply Hr. right. exists 0. split; auto; lia. }
      rewrite So by auto. rewrite (p_old _ _ _ _ S); auto.
      apply (s_leaf m I); auto. intros i Hi. apply (Hn i). apply Hr; auto.
    + rewrite Sn by auto. apply (p_new _ _ _ _ S).
      * apply (kid_hes_range (nh (hp m)) i). apply kid_hes_nth_in; auto.
      * pose proof (kid_hes_range N i _ (kid_hes_nth_in N i k Lk)). rewrite (p_nh _ _ _ _ S). fold N. lia.
  - intros q i Nq Hi. destruct (proj1 (Hr _) Hi) as [Ho|[j [Lj E']]].
    + destruct (s_fam m I q i Nq Ho) as [Li F]. pose proof (here_parent m q i Nq Ho) as Hq.
      destruct (s_kids m I q i Nq Ho) as [k1 [k2 [k3 k4]]].
      assert (H1 : here m (q ++ [(i + 1) mod 4])) by (apply F; auto).
      rewrite !So by auto. rewrite (e_k _ _ X _ _ (Side q i Hq Li) k1).
      rewrite (e_t _ _ X _ _ (Side (q ++ [i]) ((i + 1) mod 4) Ho ltac:(auto)) k2).
      rewrite !(e_p _ _ X) by (apply Side; auto). auto.
    + apply app_inj_tail in E'. destruct E' as [-> ->]. rewrite (So p j Hp), !Sn by auto.
      pose proof (p_kids _ _ _ _ S j Lj) as Ka. rewrite (side_in_data p n j Fp) in Ka. fold N in Ka. rewrite Ka.
      destruct (p_up _ _ _ _ S j Lj) as [t1 [t2 _]]. fold N in t1, t2.
      assert (T3 : P (hp m') (N + 4 * ((j + 3) mod 4) + 3) = None).
      { apply (p_up _ _ _ _ S); auto. }
      destruct j as [|[|[|[|j]]]]; try lia; simpl Nat.modulo in *; unfold kid_hes; cbn [nth];
      replace (N + 4 * 0) with N in * by lia; 
      replace (N + 4 * 1) with (N + 4) in * by lia; replace (N + 4 * 2) with (N + 8) in * by lia; replace (N + 4 * 3) with (N + 12) in * by lia;
      rewrite <- ?Nat.add_assoc in *; simpl Nat.add in *; rewrite ?Nat.add_0_r in *; auto.
  - intros r k Hrr Lk. destruct (proj1 (Hr _) Hrr) as [Ho|[j [Lj E']]].
    + rewrite So by auto. rewrite (e_p _ _ X) by (apply Side; auto). apply (s_root m I); auto.
    + exfalso. destruct p as [|a [|]]; simpl in E'; try congruence; discriminate.
  - intros h Lh. rewrite (p_nh _ _ _ _ S) in Lh. fold N in Lh. destruct (Nat.lt_ge_cases h N) as [L|L].
    + destruct (s_all m I h L) as [q [k [Hq [Lk ->]]]]. exists q, k. split; [apply Hr; auto|]. split; auto. rewrite So; auto.
    + destruct (kid_hes_all N h ltac:(lia)) as [i [k [Li [Lk Eh]]]]. exists (p ++ [i]), k.
      split; [apply Hr; right; eauto|]. split; auto. rewrite Sn; auto.
Qed.

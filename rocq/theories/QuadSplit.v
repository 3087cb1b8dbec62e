(** * Splitting a quadrilateral cell (for C28-C30) *)
From Coq Require Import List Arith Bool Lia QArith.
From Verif Require Import Tree Forest Geom SpecGeom Dcel Quad SpecForest TreeFacts ForestFacts QuadFacts.
Import ListNotations.
Open Scope nat_scope.

(** the half-edges of the four children of a cell with sides [h0..h3] that are
    made from object number [N] on: [a_i, b_i] are the halves of side [i], [u_i,
    d_i] lead to and from the centre *)
Definition kid_hes (N i : nat) : list nat :=
  match i with
  | 0 => [N; N + 2; N + 15; N + 13]
  | 1 => [N + 1; N + 4; N + 6; N + 3]
  | 2 => [N + 7; N + 5; N + 8; N + 10]
  | _ => [N + 14; N + 11; N + 9; N + 12]
  end.

(** the heap after the split *)
Record split_heap (p : path) (s : heap) (hs : list nat) (s' : heap) : Prop := {
  p_inv : hinv s';
  p_ext : ext s s';
  p_nh : nh s' = nh s + 16;
  p_links : keeps_links s s';
  p_kids : forall i, i < 4 -> K s' (nth i hs 0) = Some (nh s + 4 * i, nh s + 4 * i + 1);
  p_old : forall g, g < nh s -> ~ In g hs -> K s' g = K s g;
  p_new : forall g, nh s <= g -> g < nh s' -> K s' g = None;
  p_up : forall i, i < 4 -> T s' (nh s + 4 * i + 2) = Some (nh s + 4 * i + 3) /\
      P s' (nh s + 4 * i + 2) = None /\ P s' (nh s + 4 * i + 3) = None /\
      R s' (nh s + 4 * i + 2) = false /\ R s' (nh s + 4 * i + 3) = false /\
      B s' (nh s + 4 * i + 2) = Hd s' (nh s + 4 * i) /\ Hd s' (nh s + 4 * i + 2) = nv s /\
      B s' (nh s + 4 * i + 3) = nv s /\ Hd s' (nh s + 4 * i + 3) = Hd s' (nh s + 4 * i);
  p_vx : nv s < nv s' /\ vx s' (nv s) = mean (map (vx s) (cell_vertices s hs));
  p_cell : forall i, i < 4 -> forall k, k < 4 ->
      let g := nth k (kid_hes (nh s) i) 0 in
      C s' g = Some (p ++ [i]) /\
      next (he s' g) = Some (nth ((k + 1) mod 4) (kid_hes (nh s) i) 0) /\
      prev (he s' g) = Some (nth ((k + 3) mod 4) (kid_hes (nh s) i) 0) }.


Lemma side_steps4 vm s h0 h1 h2 h3 : hinv s -> NoDup [h0; h1; h2; h3] ->
  (forall h, In h [h0; h1; h2; h3] -> h < nh s /\ K s h = None) -> vm < nv s ->
  exists s', split_sides vm [h0; h1; h2; h3] s =
      Ok (s', map (fun i => (nh s + 4 * i + 2, nh s + 4 * i + 3)) [0; 1; 2; 3]) /\
    hinv s' /\ ext s s' /\ nh s' = nh s + 16 /\ keeps_links s s' /\
    (forall i, i < 4 -> K s' (nth i [h0; h1; h2; h3] 0) = Some (nh s + 4 * i, nh s + 4 * i + 1)) /\
    (forall g, g < nh s -> ~ In g [h0; h1; h2; h3] -> K s' g = K s g) /\
    (forall g, nh s <= g -> g < nh s' -> K s' g = None) /\
    (forall i, i < 4 -> T s' (nh s + 4 * i + 2) = Some (nh s + 4 * i + 3) /\
      P s' (nh s + 4 * i + 2) = None /\ P s' (nh s + 4 * i + 3) = None /\
      R s' (nh s + 4 * i + 2) = false /\ R s' (nh s + 4 * i + 3) = false /\
      B s' (nh s + 4 * i + 2) = Hd s' (nh s + 4 * i) /\ Hd s' (nh s + 4 * i + 2) = vm /\
      B s' (nh s + 4 * i + 3) = vm /\ Hd s' (nh s + 4 * i + 3) = Hd s' (nh s + 4 * i)).
Proof.
  intros I ND V Lv.
  assert (D : h0 <> h1 /\ h0 <> h2 /\ h0 <> h3 /\ h1 <> h2 /\ h1 <> h3 /\ h2 <> h3).
  { inversion ND as [|? ? N1 ND1]; subst. inversion ND1 as [|? ? N2 ND2]; subst. inversion ND2 as [|? ? N3 ND3]; subst.
    simpl in *. repeat split; intros ->; tauto. }
  destruct D as [D1 [D2 [D3 [D4 [D5 D6]]]]].
  destruct (V h0 ltac:(simpl; auto)) as [L0 K0]. destruct (V h1 ltac:(simpl; auto)) as [L1 K1].
  destruct (V h2 ltac:(simpl; auto)) as [L2 K2]. destruct (V h3 ltac:(simpl; auto)) as [L3 K3].
  rewrite split_sides_eq. cbn [fold_res].
  destruct (side_step_spec vm s [] h0 I L0 Lv) as [s1 [a0 [b0 [u0 [E1 [I1 [X1 [KL1 [KK1 [_ [N1 [U1 [W1 [O1 F1]]]]]]]]]]]]]].
  destruct (F1 K0) as [-> [-> [-> [KA1 KB1]]]]. clear F1. rewrite E1. cbn [bind].
  assert (K1' : K s1 h1 = None) by (rewrite O1; auto).
  pose proof (e_nv _ _ X1) as V1.
  destruct (side_step_spec vm s1 ([] ++ [(S (S (nh s)), S (S (S (nh s))))]) h1 I1 ltac:(lia) ltac:(lia)) as [s2 [a1 [b1 [u1 [E2 [I2 [X2 [KL2 [KK2 [_ [N2 [U2 [W2 [O2 F2]]]]]]]]]]]]]].
  destruct (F2 K1') as [-> [-> [-> [KA2 KB2]]]]. clear F2. rewrite E2. cbn [bind].
  assert (K2' : K s2 h2 = None) by (rewrite O2, O1; auto; lia).
  pose proof (e_nv _ _ X2) as V2.
  match goal with |- context [side_step vm (s2, ?l) h2] => set (l2 := l) end.
  destruct (side_step_spec vm s2 l2 h2 I2 ltac:(lia) ltac:(lia)) as [s3 [a2 [b2 [u2 [E3 [I3 [X3 [KL3 [KK3 [_ [N3 [U3 [W3 [O3 F3]]]]]]]]]]]]]].
  destruct (F3 K2') as [-> [-> [-> [KA3 KB3]]]]. clear F3. rewrite E3. cbn [bind].
  assert (K3' : K s3 h3 = None) by (rewrite O3, O2, O1; auto; lia).
  pose proof (e_nv _ _ X3) as V3.
  match goal with |- context [side_step vm (s3, ?l) h3] => set (l3 := l) end.
  destruct (side_step_spec vm s3 l3 h3 I3 ltac:(lia) ltac:(lia)) as [s4 [a3 [b3 [u3 [E4 [I4 [X4 [KL4 [KK4 [_ [N4 [U4 [W4 [O4 F4]]]]]]]]]]]]]].
  destruct (F4 K3') as [-> [-> [-> [KA4 KB4]]]]. clear F4. rewrite E4. cbn [bind].
  exists s4. assert (X : ext s s4) by (repeat (eapply ext_trans; [eassumption|]); apply ext_refl).
  assert (X14 : ext s1 s4) by (repeat (eapply ext_trans; [eassumption|]); apply ext_refl).
  assert (X24 : ext s2 s4) by (repeat (eapply ext_trans; [eassumption|]); apply ext_refl).
  split; [|split; [auto|]; split; [auto|]; split; [lia|]; split].
  - f_equal. f_equal. unfold l3, l2. cbn [app map]. repeat (f_equal; try lia).
  - intros g Lg. destruct (KL1 g Lg) as [c1 [c2 c3]]. destruct (KL2 g ltac:(lia)) as [c4 [c5 c6]].
    destruct (KL3 g ltac:(lia)) as [c7 [c8 c9]]. destruct (KL4 g ltac:(lia)) as [c10 [c11 c12]]. repeat split; congruence.
  - split; [|split; [|split]].
    + intros i Li. destruct i as [|[|[|[|i]]]]; try lia; cbn [nth].
      * rewrite O4, O3, O2, KK1 by (auto; lia). repeat (f_equal; try lia).
      * rewrite O4, O3, KK2 by (auto; lia). repeat (f_equal; try lia).
      * rewrite O4, KK3 by (auto; lia). repeat (f_equal; try lia).
      * rewrite KK4. repeat (f_equal; try lia).
    + intros g Lg NI. simpl in NI. rewrite O4, O3, O2, O1 by (auto; try lia; intros ->; tauto). auto.
    + intros g Lg Lg'.
      assert (Q1 : nh s <= g < nh s1 -> K s1 g = None).
      { intros Q. assert (g = nh s \/ g = S (nh s) \/ g = S (S (nh s)) \/ g = S (S (S (nh s)))) as [->|[->|[->| ->]]] by lia; auto; [rewrite U1|rewrite W1]; auto. }
      assert (Q2 : nh s1 <= g < nh s2 -> K s2 g = None).
      { intros Q. assert (g = nh s1 \/ g = S (nh s1) \/ g = S (S (nh s1)) \/ g = S (S (S (nh s1)))) as [->|[->|[->| ->]]] by lia; auto; [rewrite U2|rewrite W2]; auto. }
      assert (Q3 : nh s2 <= g < nh s3 -> K s3 g = None).
      { intros Q. assert (g = nh s2 \/ g = S (nh s2) \/ g = S (S (nh s2)) \/ g = S (S (S (nh s2)))) as [->|[->|[->| ->]]] by lia; auto; [rewrite U3|rewrite W3]; auto. }
      assert (Q4 : nh s3 <= g < nh s4 -> K s4 g = None).
      { intros Q. assert (g = nh s3 \/ g = S (nh s3) \/ g = S (S (nh s3)) \/ g = S (S (S (nh s3)))) as [->|[->|[->| ->]]] by lia; auto; [rewrite U4|rewrite W4]; auto. }
      destruct (Nat.lt_ge_cases g (nh s1)); [rewrite O4, O3, O2 by (auto; lia); apply Q1; lia|].
      destruct (Nat.lt_ge_cases g (nh s2)); [rewrite O4, O3 by (auto; lia); apply Q2; lia|].
      destruct (Nat.lt_ge_cases g (nh s3)); [rewrite O4 by (auto; lia); apply Q3; lia|]. apply Q4; lia.
    + assert (Q : forall sa sb a u, ext sa sb -> nh sa = S (S u) -> a < u -> 
        he sa u = mkHe (Hd sa a) vm None None None (Some (S u)) None None false ->
        he sa (S u) = mkHe vm (Hd sa a) None None None (Some u) None None false ->
        T sb u = Some (S u) /\ P sb u = None /\ P sb (S u) = None /\ R sb u = false /\ R sb (S u) = false /\
        B sb u = Hd sb a /\ Hd sb u = vm /\ B sb (S u) = vm /\ Hd sb (S u) = Hd sb a).
      { intros sa sb a u Xab Na Lu Eu Ed. destruct Xab as [x1 x2 x3 x4 x5 x6 x7 x8 x9 x10].
        rewrite (x8 u (S u)) by (try lia; rewrite Eu; auto).
        rewrite !x6, !x7, !x4, !x5, Eu, Ed by lia. cbn. repeat split; auto. }
      intros i Li. destruct i as [|[|[|[|i]]]]; try lia.
      * replace (nh s + 4 * 0 + 3) with (S (S (S (nh s)))) by lia. replace (nh s + 4 * 0 + 2) with (S (S (nh s))) by lia.
        replace (nh s + 4 * 0) with (nh s) by lia. apply (Q s1 s4 (nh s)); auto.
      * replace (nh s + 4 * 1 + 3) with (S (S (S (nh s1)))) by lia. replace (nh s + 4 * 1 + 2) with (S (S (nh s1))) by lia.
        replace (nh s + 4 * 1) with (nh s1) by lia. apply (Q s2 s4 (nh s1)); auto.
      * replace (nh s + 4 * 2 + 3) with (S (S (S (nh s2)))) by lia. replace (nh s + 4 * 2 + 2) with (S (S (nh s2))) by lia.
        replace (nh s + 4 * 2) with (nh s2) by lia. apply (Q s3 s4 (nh s2)); auto.
      * replace (nh s + 4 * 3 + 3) with (S (S (S (nh s3)))) by lia. replace (nh s + 4 * 3 + 2) with (S (S (nh s3))) by lia.
        replace (nh s + 4 * 3) with (nh s3) by lia. apply (Q s4 s4 (nh s3)); auto. apply ext_refl.
Qed.

Definition ud_list (N : nat) : list (nat * nat) := map (fun i => (N + 4 * i + 2, N + 4 * i + 3)) [0; 1; 2; 3].
Definition kid_links (p : path) (N : nat) (s : heap) (i : nat) : Prop := forall k, k < 4 ->
  let g := nth k (kid_hes N i) 0 in
  C s g = Some (p ++ [i]) /\
  next (he s g) = Some (nth ((k + 1) mod 4) (kid_hes N i) 0) /\
  prev (he s g) = Some (nth ((k + 3) mod 4) (kid_hes N i) 0).

Lemma area_agree s s' l : agree s s' -> he_area s' l = he_area s l.
Proof.
  intros A. unfold he_area. rewrite (a_vx _ _ A). f_equal. apply map_ext. intros h. rewrite (a_b _ _ A), (a_h _ _ A). auto.
Qed.
Lemma kid_hes_range N i g : In g (kid_hes N i) -> N <= g < N + 16.
Proof. destruct i as [|[|[|i]]]; simpl; lia. Qed.
Lemma kid_hes_disjoint N i j g : i < 4 -> j < 4 -> i <> j -> In g (kid_hes N i) -> ~ In g (kid_hes N j).
Proof. intros Li Lj D. destruct i as [|[|[|[|i]]]], j as [|[|[|[|j]]]]; simpl; lia. Qed.
Lemma kid_hes_nodup N i : NoDup (kid_hes N i).
Proof. destruct i as [|[|[|i]]]; simpl; repeat constructor; simpl; lia. Qed.
Lemma kid_hes_length N i : length (kid_hes N i) = 4.
Proof. destruct i as [|[|[|i]]]; reflexivity. Qed.
Lemma kid_hes_nth_in N i k : k < 4 -> In (nth k (kid_hes N i) 0) (kid_hes N i).
Proof. intros L. apply nth_In. rewrite kid_hes_length; auto. Qed.
Lemma kid_hes_all N g : N <= g < N + 16 -> exists i k, i < 4 /\ k < 4 /\ nth k (kid_hes N i) 0 = g.
Proof.
  intros L. remember (g - N) as e eqn:Ee. assert (g = N + e) as -> by lia. assert (Le : e < 16) by lia.
  assert (X : forall i k, i < 4 -> k < 4 -> nth k (kid_hes N i) 0 = N + e -> exists i k, i < 4 /\ k < 4 /\ nth k (kid_hes N i) 0 = N + e) by (intros; eauto).
  clear L Ee. do 16 (destruct e as [|e]; [first
   [apply (X 0 0); [lia|lia|simpl; lia]|apply (X 0 1); [lia|lia|simpl; lia]|apply (X 0 2); [lia|lia|simpl; lia]|apply (X 0 3); [lia|lia|simpl; lia]
   |apply (X 1 0); [lia|lia|simpl; lia]|apply (X 1 1); [lia|lia|simpl; lia]|apply (X 1 2); [lia|lia|simpl; lia]|apply (X 1 3); [lia|lia|simpl; lia]
   |apply (X 2 0); [lia|lia|simpl; lia]|apply (X 2 1); [lia|lia|simpl; lia]|apply (X 2 2); [lia|lia|simpl; lia]|apply (X 2 3); [lia|lia|simpl; lia]
   |apply (X 3 0); [lia|lia|simpl; lia]|apply (X 3 1); [lia|lia|simpl; lia]|apply (X 3 2); [lia|lia|simpl; lia]|apply (X 3 3); [lia|lia|simpl; lia]]|]).
  lia.
Qed.

Lemma split_children4 p h0 h1 h2 h3 s N vm :
  let hs := [h0; h1; h2; h3] in
  hinv s -> nh s = N + 16 -> (forall h, In h hs -> h < N) ->
  (forall i, i < 4 -> K s (nth i hs 0) = Some (N + 4 * i, N + 4 * i + 1)) ->
  (forall i, i < 4 -> prev (he s (nth i hs 0)) = Some (nth ((i + 3) mod 4) hs 0)) ->
  (forall i, i < 4 -> Hd s (nth i hs 0) = B s (nth ((i + 1) mod 4) hs 0)) ->
  (forall i, i < 4 -> B s (N + 4 * i + 2) = Hd s (N + 4 * i) /\ Hd s (N + 4 * i + 2) = vm /\
      B s (N + 4 * i + 3) = vm /\ Hd s (N + 4 * i + 3) = Hd s (N + 4 * i)) ->
  match split_children p hs (ud_list N) s with
  | Ok (s', ks) => ks = map (kid_hes N) [0; 1; 2; 3] /\ agree s s' /\
      (forall g, g < N -> he s' g = he s g) /\ (forall i, i < 4 -> kid_links p N s' i) /\
      (forall i, i < 4 -> Qltb 0 (he_area s (kid_hes N i)) = true)
  | Err e => e = AssertionError /\ exists i, i < 4 /\ Qltb 0 (he_area s (kid_hes N i)) = false
  end.
Proof.
  intros hs I NN LH KK PP JJ UD.
  (* vertices of the new half-edges *)
  assert (VV : forall i, i < 4 -> B s (N + 4 * i) = B s (nth i hs 0) /\ Hd s (N + 4 * i) = B s (N + 4 * i + 1) /\
                                 Hd s (N + 4 * i + 1) = Hd s (nth i hs 0)).
  { intros i Li. assert (Lh : nth i hs 0 < nh s).
    { assert (nth i hs 0 < N); [|lia]. apply LH. apply nth_In. simpl; lia. }
    destruct (i_k s I _ _ _ Lh (KK i Li)) as [_ [_ [_ [_ [Q1 [Q2 [Q3 _]]]]]]]. auto. }
  assert (CH : forall s0 i, i < 4 -> agree s s0 -> (forall g, g < N -> he s0 g = he s g) ->
             child_hes s0 hs (ud_list N) i = Ok (kid_hes N i)).
  { intros s0 i Li A O. unfold child_hes. rewrite (a_k _ _ A), KK by auto.
    rewrite O by (apply LH, nth_In; simpl; lia). rewrite PP by auto. rewrite (a_k _ _ A), KK by (apply Nat.mod_upper_bound; lia).
    f_equal. destruct i as [|[|[|[|i]]]]; try lia; unfold ud_list, kid_hes, rotate, rot1; simpl Nat.modulo; cbn [nth map fst snd rev app];
      repeat (f_equal; try lia). }
  assert (ST : forall s0 i, i < 4 -> agree s s0 ->
     match cell_init (p ++ [i]) (kid_hes N i) s0 with
     | Ok s1 => Qltb 0 (he_area s (kid_hes N i)) = true /\ agree s s1 /\ (forall g, ~ In g (kid_hes N i) -> he s1 g = he s0 g) /\ kid_links p N s1 i
     | Err e => e = AssertionError /\ Qltb 0 (he_area s (kid_hes N i)) = false
     end).
  { intros s0 i Li A.
    assert (W : exists a b c d, kid_hes N i = [a; b; c; d] /\ Hd s a = B s b /\ Hd s b = B s c /\ Hd s c = B s d /\ Hd s d = B s a).
    { destruct (VV 0 ltac:(lia)) as [v1 [v2 v3]]. destruct (VV 1 ltac:(lia)) as [v4 [v5 v6]].
      destruct (VV 2 ltac:(lia)) as [v7 [v8 v9]]. destruct (VV 3 ltac:(lia)) as [v10 [v11 v12]].
      destruct (UD 0 ltac:(lia)) as [u1 [u2 [u3 u4]]]. destruct (UD 1 ltac:(lia)) as [u5 [u6 [u7 u8]]].
      destruct (UD 2 ltac:(lia)) as [u9 [u10 [u11 u12]]]. destruct (UD 3 ltac:(lia)) as [u13 [u14 [u15 u16]]].
      pose proof (JJ 0 ltac:(lia)) as j0. pose proof (JJ 1 ltac:(lia)) as j1. pose proof (JJ 2 ltac:(lia)) as j2. pose proof (JJ 3 ltac:(lia)) as j3.
      simpl Nat.modulo in j0, j1, j2, j3. unfold hs in *. cbn [nth] in *.
      replace (N + 4 * 0) with N in * by lia. 
      replace (N + 4 * 1) with (N + 4) in * by lia. replace (N + 4 * 2) with (N + 8) in * by lia. replace (N + 4 * 3) with (N + 12) in * by lia.
      rewrite <- ?Nat.add_assoc in *. simpl Nat.add in *.
      destruct i as [|[|[|[|i]]]]; try lia; unfold kid_hes; do 4 eexists; (split; [reflexivity|]); repeat split; congruence. }
    destruct W as [a [b [c [d [EW [w1 [w2 [w3 w4]]]]]]]].
    pose proof (cell_init4 (p ++ [i]) a b c d s0) as Q. rewrite <- EW in Q.
    rewrite !(a_h _ _ A), !(a_b _ _ A) in Q. specialize (Q (kid_hes_nodup N i) w1 w2 w3 w4).
    rewrite (area_agree _ _ _ A) in Q.
    destruct (cell_init (p ++ [i]) (kid_hes N i) s0) as [s1|]; [|auto].
    destruct Q as [Q1 [Q2 [Q3 [Ga [Gb [Gc Gd]]]]]]. split; auto. split; [eapply agree_trans; eauto|]. split; auto.
    intros k Lk. rewrite EW. destruct k as [|[|[|[|k]]]]; try lia; cbn [nth]; simpl Nat.modulo; cbn [nth];
      [rewrite Ga|rewrite Gb|rewrite Gc|rewrite Gd]; cbn; auto. }
  assert (KL : forall s0 s1 i j, i < 4 -> j < 4 -> i <> j -> kid_links p N s0 i -> (forall g, ~ In g (kid_hes N j) -> he s1 g = he s0 g) -> kid_links p N s1 i).
  { intros s0 s1 i j Li Lj D KL O k Lk. cbn zeta. rewrite O; [apply KL; auto|]. apply (kid_hes_disjoint N i j); auto. apply kid_hes_nth_in; auto. }
  unfold split_children. change (length hs) with 4. cbn [seq fold_res].
  rewrite (CH s 0 ltac:(lia) (agree_refl s) ltac:(auto)). cbn [bind].
  pose proof (ST s 0 ltac:(lia) (agree_refl s)) as Q0. destruct (cell_init (p ++ [0]) _ s) as [s1|]; cbn [bind]; [|destruct Q0 as [-> Q0]; split; [auto|exists 0; split; [lia|auto]]].
  destruct Q0 as [R0 [A1 [O1 L1]]].
  assert (OO1 : forall g, g < N -> he s1 g = he s g).
  { intros g Lg. apply O1. intros Ig. apply kid_hes_range in Ig. lia. }
  rewrite (CH s1 1 ltac:(lia) A1 OO1). cbn [bind].
  pose proof (ST s1 1 ltac:(lia) A1) as Q1. destruct (cell_init (p ++ [1]) _ s1) as [s2|]; cbn [bind]; [|destruct Q1 as [-> Q1]; split; [auto|exists 1; split; [lia|auto]]].
  destruct Q1 as [R1 [A2 [O2 L2]]].
  assert (OO2 : forall g, g < N -> he s2 g = he s g).
  { intros g Lg. rewrite O2; auto. intros Ig. apply kid_hes_range in Ig. lia. }
  rewrite (CH s2 2 ltac:(lia) A2 OO2). cbn [bind].
  pose proof (ST s2 2 ltac:(lia) A2) as Q2. destruct (cell_init (p ++ [2]) _ s2) as [s3|]; cbn [bind]; [|destruct Q2 as [-> Q2]; split; [auto|exists 2; split; [lia|auto]]].
  destruct Q2 as [R2 [A3 [O3 L3]]].
  assert (OO3 : forall g, g < N -> he s3 g = he s g).
  { intros g Lg. rewrite O3; auto. intros Ig. apply kid_hes_range in Ig. lia. }
  rewrite (CH s3 3 ltac:(lia) A3 OO3). cbn [bind].
  pose proof (ST s3 3 ltac:(lia) A3) as Q3. destruct (cell_init (p ++ [3]) _ s3) as [s4|]; cbn [bind]; [|destruct Q3 as [-> Q3]; split; [auto|exists 3; split; [lia|auto]]].
  destruct Q3 as [R3 [A4 [O4 L4]]]. split; [reflexivity|]. split; auto. split.
  { intros g Lg. rewrite O4; auto. intros Ig. apply kid_hes_range in Ig. lia. }
  split.
  - intros i Li. destruct i as [|[|[|[|i]]]]; try lia; auto.
    + apply (KL s3 s4 0 3); auto; try lia. apply (KL s2 s3 0 2); auto; try lia. apply (KL s1 s2 0 1); auto; lia.
    + apply (KL s3 s4 1 3); auto; try lia. apply (KL s2 s3 1 2); auto; try lia.
    + apply (KL s3 s4 2 3); auto; try lia.
  - intros i Li. destruct i as [|[|[|[|i]]]]; try lia; auto.
Qed.

(** a cell whose four half-edges form a loop *)
Definition good_cell (s : heap) (p : path) (hs : list nat) : Prop :=
  length hs = 4 /\ NoDup hs /\ forall k, k < 4 ->
    nth k hs 0 < nh s /\ C s (nth k hs 0) = Some p /\
    next (he s (nth k hs 0)) = Some (nth ((k + 1) mod 4) hs 0) /\
    prev (he s (nth k hs 0)) = Some (nth ((k + 3) mod 4) hs 0) /\
    Hd s (nth k hs 0) = B s (nth ((k + 1) mod 4) hs 0).
(** the split cell: four new leaves *)
Definition split_node (fl : option flag) (N : nat) (n : node (list nat)) : node (list nat) :=
  let 'Node m d ks := n in
  Node (promote m) d
    (map (fun i => Some (match fl with Some g => mark_here g | None => fun c => c end
                          (new_child m 4 i (kid_hes N i)))) [0; 1; 2; 3]).

Lemma cell_split_spec fl p m n : hinv (hp m) -> fget (cells m) p = Some n ->
  good_cell (hp m) p (n_data n) -> length (n_slots n) = 4 -> m_regular (n_meta n) = true ->
  has_children n None = false -> (forall k, k < 4 -> K (hp m) (nth k (n_data n) 0) = None) ->
  match cell_split fl p m with
  | Ok m' => split_heap p (hp m) (n_data n) (hp m') /\
      cells m' = fupd p (fun _ => split_node fl (nh (hp m)) n) (cells m) /\
      (forall i, i < 4 -> Qltb 0 (he_area (hp m') (kid_hes (nh (hp m)) i)) = true)
  | Err e => e = AssertionError /\ exists s', split_sides (nv (hp m)) (n_data n)
        (new_vertex (mean (map (vx (hp m)) (cell_vertices (hp m) (n_data n)))) (hp m)) = Ok (s', ud_list (nh (hp m))) /\
        hinv s' /\ ext (hp m) s' /\ (forall i, i < 4 -> K s' (nth i (n_data n) 0) = Some (nh (hp m) + 4 * i, nh (hp m) + 4 * i + 1)) /\
        (forall i, i < 4 -> B s' (nh (hp m) + 4 * i + 2) = Hd s' (nh (hp m) + 4 * i) /\ Hd s' (nh (hp m) + 4 * i + 2) = nv (hp m) /\
           B s' (nh (hp m) + 4 * i + 3) = nv (hp m) /\ Hd s' (nh (hp m) + 4 * i + 3) = Hd s' (nh (hp m) + 4 * i)) /\
        vx s' (nv (hp m)) = mean (map (vx (hp m)) (cell_vertices (hp m) (n_data n))) /\
        exists i, i < 4 /\ Qltb 0 (he_area s' (kid_hes (nh (hp m)) i)) = false
  end.
Proof.
  intros I Fp [Len [ND G]] Sl Rg HC KN.
  destruct (n_data n) as [|h0 [|h1 [|h2 [|h3 [|]]]]] eqn:ED; simpl in Len; try lia. clear Len.
  set (hs := [h0; h1; h2; h3]) in *. set (s := hp m) in *. set (N := nh s).
  set (x := mean (map (vx s) (cell_vertices s hs))).
  destruct (new_vertex_inv x s I) as [I0 [X0 E0]].
  assert (IH : forall h, In h hs -> exists k, k < 4 /\ nth k hs 0 = h).
  { intros h Ih. apply (In_nth _ _ 0) in Ih. destruct Ih as [k [Lk Ek]]. exists k. simpl in Lk. auto. }
  destruct (side_steps4 (nv s) (new_vertex x s) h0 h1 h2 h3 I0 ND) as [s1 [ES [I1 [X1 [N1 [KL1 [KK1 [O1 [Nw1 U1]]]]]]]]].
  { intros h Ih. destruct (IH h Ih) as [k [Lk <-]]. destruct (G k Lk) as [L _]. rewrite E0. split; [exact L|]. apply KN; auto. }
  { cbn. lia. }
  change (nh (new_vertex x s)) with N in *. fold hs in ES, KK1, O1.
  pose proof (ext_trans _ _ _ X0 X1) as X.
  assert (GK : forall k, k < 4 -> nth k hs 0 < N /\ C s1 (nth k hs 0) = Some p /\ next (he s1 (nth k hs 0)) = Some (nth ((k + 1) mod 4) hs 0) /\
    prev (he s1 (nth k hs 0)) = Some (nth ((k + 3) mod 4) hs 0) /\ Hd s1 (nth k hs 0) = B s1 (nth ((k + 1) mod 4) hs 0)).
  { intros k Lk. destruct (G k Lk) as [g1 [g2 [g3 [g4 g5]]]]. destruct (G ((k + 1) mod 4) ltac:(apply Nat.mod_upper_bound; lia)) as [g6 _].
    destruct (KL1 (nth k hs 0) g1) as [k1 [k2 k3]]. rewrite E0 in k1, k2, k3.
    rewrite k1, k2, k3, (e_h _ _ X), (e_b _ _ X) by auto. repeat split; auto. }
  pose proof (split_children4 p h0 h1 h2 h3 s1 N (nv s) I1 N1) as SC. cbv zeta in SC. fold hs in SC.
  specialize (SC ltac:(intros h Ih; destruct (IH h Ih) as [k [Lk <-]]; apply GK; auto) KK1
                 ltac:(intros i Li; apply GK; auto) ltac:(intros i Li; apply GK; auto)
                 ltac:(intros i Li; destruct (U1 i Li) as [_ [_ [_ [_ [_ [u1 [u2 [u3 u4]]]]]]]]; auto)).
  unfold cell_split. rewrite Fp, HC, ED. fold s. fold hs. fold x. rewrite ES. cbn [bind fst snd].
  fold (ud_list N). change (map (fun i : nat => (N + 4 * i + 2, N + 4 * i + 3)) [0; 1; 2; 3]) with (ud_list N) in *.
  destruct (split_children p hs (ud_list N) s1) as [[s2 ks]|e] eqn:EC; cbn [bind fst snd].
  - destruct SC as [-> [A2 [O2 [L2 AR]]]].
    assert (SP : split (fun i _ _ => nth i (map (kid_hes N) [0; 1; 2; 3]) []) n = Ok (split_node None N n)).
    { destruct n as [mt d sl]. cbn in Sl, Rg |- *. rewrite Rg, Sl. destruct sl as [|]; [discriminate|]. reflexivity. }
    rewrite SP. cbn [bind fst snd hp cells]. split; [|split].
    + constructor.
      * eapply agree_hinv; eauto.
      * eapply ext_trans; [exact X|apply agree_ext; auto].
      * rewrite (a_nh _ _ A2). auto.
      * intros g Lg. rewrite O2 by auto. destruct (KL1 g Lg) as [k1 [k2 k3]]. rewrite E0 in k1, k2, k3. auto.
      * intros i Li. rewrite (a_k _ _ A2). auto.
      * intros g Lg NI. rewrite (a_k _ _ A2), O1 by auto. rewrite E0. auto.
      * intros g Lg Lg'. rewrite (a_k _ _ A2). apply Nw1; auto. rewrite (a_nh _ _ A2) in Lg'. auto.
      * intros i Li. rewrite !(a_p _ _ A2), !(a_t _ _ A2), !(a_r _ _ A2), !(a_b _ _ A2), !(a_h _ _ A2). auto.
      * rewrite (a_nv _ _ A2), (a_vx _ _ A2). pose proof (e_nv _ _ X1) as V. cbn in V. split; [lia|].
        rewrite (e_vx _ _ X1) by (cbn; lia). cbn. unfold upd. rewrite Nat.eqb_refl. reflexivity.
      * intros i Li k Lk. apply (L2 i Li k Lk).
    + f_equal. unfold split_node. destruct n as [mt d sl]. destruct fl; reflexivity.
    + intros i Li. rewrite (area_agree _ _ _ A2). auto.
  - destruct SC as [-> SC]. split; auto. exists s1. split; [reflexivity|]. split; [exact I1|]. split; [exact X|]. split; auto.
    split; [intros i Li; destruct (U1 i Li) as [_ [_ [_ [_ [_ U]]]]]; exact U|]. split; auto. 
    rewrite (e_vx _ _ X1) by (cbn; lia). cbn. unfold upd. rewrite Nat.eqb_refl. reflexivity.
Qed.

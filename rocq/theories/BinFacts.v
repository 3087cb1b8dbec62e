(** bin_points (C19) *)
From Coq Require Import List Arith Bool Lia Permutation.
Import ListNotations.
From Verif Require Import Tree Forest SpecForest TreeFacts ForestFacts LabelFacts RootFacts History PlaceFacts RefineFacts
  RefineFacts2 Geom.
Set Implicit Arguments.

Lemma fl_ok_dec_b {A} sf (k : node A) :
  {match sf with None => true | Some _ => is_marked k sf end = true /\ fl_ok sf k} +
  {match sf with None => true | Some _ => is_marked k sf end = false /\ ~ fl_ok sf k}.
Proof.
  destruct sf as [s|]; unfold fl_ok; [|left; auto]. destruct (is_marked k (Some s)) eqn:E; [left|right]; split; congruence.
Qed.
Section Bin.
Context {A P : Type}.
Variable inside : A -> P -> bool.
Variable sf : option flag.

Fixpoint bin_go (p : path) (i : nat) (l : list (option (node A))) (x : ipts (P := P)) {struct l} : res binned :=
  match l with
  | [] => Ok []
  | None :: r => bin_go p (S i) r x
  | Some k :: r =>
      if (match sf with None => true | Some _ => is_marked k sf end) then
        let y := filter (fun ix => inside (n_data k) (snd ix)) x in
        match y with
        | [] => bin_go p (S i) r x
        | _ => bind (bin_node inside sf (p ++ [i]) k y) (fun b1 =>
               bind (bin_go p (S i) r (filter (fun ix => negb (inside (n_data k) (snd ix))) x))
                    (fun b2 => Ok (b1 ++ b2)))
        end
      else bin_go p (S i) r x
  end.
Lemma bin_node_eq p m (d : A) ks pts : bin_node inside sf p (Node m d ks) pts =
  if negb (forallb (fun ix => inside d (snd ix)) pts) then Err AssertionError
  else if has_children (Node m d ks) sf then bin_go p 0 ks pts else Ok [(p, map fst pts)].
Proof.
  cbn [bin_node]. destruct (negb _); auto. destruct (has_children _ _); auto.
  generalize 0 pts. induction ks as [|[k|] ks IH]; intros i x; auto.
  - cbn [bin_go]. destruct (match sf with None => true | Some _ => is_marked k sf end); [|apply IH].
    destruct (filter (fun ix => inside (n_data k) (snd ix)) x); [apply IH|].
    destruct (bin_node inside sf (p ++ [i]) k _); cbn [bind]; auto. rewrite IH. reflexivity.
  - cbn [bin_go]. apply IH.
Qed.

(** what a list of bins must satisfy *)
Definition bin_ok (p : path) (n : node A) (pts : ipts (P := P)) (b : binned) : Prop :=
  (forall q idx, In (q, idx) b -> idx <> [] /\ exists r c, q = p ++ r /\ nget n r = Some c /\ is_leaf_of sf c /\
      forall j, In j idx -> exists x, In (j, x) pts /\ inside (n_data c) x = true) /\
  Permutation (flat_map snd b) (map fst pts) /\ NoDup (map fst b).

Lemma filter_perm {X} (h : X -> bool) l : Permutation l (filter h l ++ filter (fun x => negb (h x)) l).
Proof.
  induction l as [|x l IH]; simpl; auto. destruct (h x); simpl; auto.
  etransitivity; [apply perm_skip, IH|]. apply Permutation_middle.
Qed.

Definition covered (n : node A) : Prop := forall r c x, nget n r = Some c -> fl_ok sf c ->
  has_children c sf = true -> inside (n_data c) x = true ->
  exists i k, nth_error (n_slots c) i = Some (Some k) /\ fl_ok sf k /\ inside (n_data k) x = true.

Lemma app_path_inj (p : path) i r j s : p ++ i :: r = p ++ j :: s -> i = j.
Proof. intro H. apply app_inv_head in H. congruence. Qed.

Lemma bin_node_ok : forall n p pts, fl_ok sf n -> covered n -> pts <> [] ->
  (forall j x, In (j, x) pts -> inside (n_data n) x = true) ->
  exists b, bin_node inside sf p n pts = Ok b /\ bin_ok p n pts b.
Proof.
  induction n as [m d ks IH] using node_ind'. intros p pts F C NE Hin.
  rewrite bin_node_eq.
  assert (E : forallb (fun ix => inside d (snd ix)) pts = true).
  { apply forallb_forall. intros [j x] Hx. apply (Hin j x Hx). }
  rewrite E. cbn [negb].
  destruct (has_children (Node m d ks) sf) eqn:Hc.
  - assert (G : forall l i x, (forall a, nth_error l a = nth_error ks (i + a)) ->
        (forall j y, In (j, y) x -> inside d y = true) ->
        (forall j y, In (j, y) x -> exists a k, nth_error l a = Some (Some k) /\ fl_ok sf k /\ inside (n_data k) y = true) ->
        exists b, bin_go p i l x = Ok b /\ bin_ok p (Node m d ks) x b /\
          (forall q, In q (map fst b) -> exists a r, i <= a /\ q = p ++ a :: r)).
    { induction l as [|o l IHl]; intros i x Hl Hx Hcov.
      - exists []. split; auto. destruct x as [|[j y] x].
        + split; [split; [intros q idx []|split; [apply perm_nil|constructor]]|intros q []].
        + destruct (Hcov j y (or_introl eq_refl)) as [a [k [Ea _]]]. destruct a; discriminate.
      - assert (E0 : nth_error ks i = Some o) by (specialize (Hl 0); simpl in Hl; rewrite Nat.add_0_r in Hl; auto).
        assert (Hl' : forall a, nth_error l a = nth_error ks (S i + a))
          by (intro a; specialize (Hl (S a)); simpl in Hl; rewrite Hl; f_equal; lia).
        assert (Skip : forall x', (forall j y, In (j, y) x' -> In (j, y) x) ->
           (forall j y k, In (j, y) x' -> o = Some k -> fl_ok sf k -> inside (n_data k) y = true -> False) ->
           exists b, bin_go p (S i) l x' = Ok b /\ bin_ok p (Node m d ks) x' b /\
             (forall q, In q (map fst b) -> exists a r, S i <= a /\ q = p ++ a :: r)).
        { intros x' Sub No. apply IHl; auto.
          - intros j y Hy. eapply Hx; eauto.
          - intros j y Hy. destruct (Hcov j y (Sub _ _ Hy)) as [[|a] [k [Ea [Fk Ik]]]].
            + exfalso. simpl in Ea. injection Ea as ->. eapply No; eauto.
            + simpl in Ea. eauto. }
        destruct o as [k|]; cbn [bin_go].
        + destruct (fl_ok_dec_b sf k) as [[Fb Fk]|[Fb Fk]]; rewrite Fb.
          * destruct (filter (fun ix => inside (n_data k) (snd ix)) x) as [|y0 ys] eqn:Ey.
            -- destruct (Skip x) as [b [B1 [B2 B3]]]; auto.
               { intros j y k' Hy Ek Fk' Ik. injection Ek as <-.
                 assert (In (j, y) (filter (fun ix => inside (n_data k) (snd ix)) x)) by (apply filter_In; auto).
                 rewrite Ey in H. destruct H. }
               exists b. split; auto. split; auto. intros q Hq. destruct (B3 q Hq) as [a [r [L ->]]]. exists a, r. split; [lia|auto].
            -- rewrite <- Ey.
               destruct (IH i k E0 (p ++ [i]) (filter (fun ix => inside (n_data k) (snd ix)) x)) as [b1 [B1 [K1 [K2 K3]]]]; auto.
               { intros r c z Er. apply (C (i :: r) c z). simpl. rewrite E0; auto. }
               { rewrite Ey; discriminate. }
               { intros j y Hy. apply filter_In in Hy. tauto. }
               destruct (Skip (filter (fun ix => negb (inside (n_data k) (snd ix))) x)) as [b2 [B2 [[L1 [L2 L3]] B3]]].
               { intros j y Hy. apply filter_In in Hy. tauto. }
               { intros j y k' Hy Ek Fk' Ik. injection Ek as <-. apply filter_In in Hy. destruct Hy as [_ Hy]. cbn [snd] in Hy.
                 rewrite Ik in Hy. discriminate. }
               rewrite B1; cbn [bind]. rewrite B2; cbn [bind]. exists (b1 ++ b2). split; auto.
               assert (Q1 : forall q, In q (map fst b1) -> exists r, q = p ++ i :: r).
               { intros q Hq. apply in_map_iff in Hq. destruct Hq as [[q' idx] [<- Hq]].
                 destruct (K1 _ _ Hq) as [_ [r [c [-> _]]]]. exists r. cbn [fst]. rewrite <- app_assoc. auto. }
               split; [split; [|split]|].
               ++ intros q idx Hq. apply in_app_or in Hq. destruct Hq as [Hq|Hq].
                  ** destruct (K1 _ _ Hq) as [N1 [r [c [-> [Er [Lf Hj]]]]]]. split; auto. exists (i :: r), c.
                     rewrite <- app_assoc. split; auto. split; [simpl; rewrite E0; auto|]. split; auto.
                     intros j Hj'. destruct (Hj j Hj') as [z [Hz Iz]]. apply filter_In in Hz. exists z. tauto.
                  ** destruct (L1 _ _ Hq) as [N1 [r [c [-> [Er [Lf Hj]]]]]]. split; auto. exists r, c.
                     split; auto. split; auto. split; auto.
                     intros j Hj'. destruct (Hj j Hj') as [z [Hz Iz]]. apply filter_In in Hz. exists z. tauto.
               ++ rewrite flat_map_app. etransitivity; [apply Permutation_app; [exact K2|exact L2]|].
                  rewrite <- map_app. apply Permutation_map. symmetry. apply filter_perm.
               ++ rewrite map_app. apply nodup_app; auto. intros q H1 H2.
                  destruct (Q1 q H1) as [r ->]. destruct (B3 _ H2) as [a [r' [La Er]]]. apply app_path_inj in Er. lia.
               ++ intros q Hq. rewrite map_app in Hq. apply in_app_or in Hq. destruct Hq as [Hq|Hq].
                  ** destruct (Q1 q Hq) as [r ->]. exists i, r. auto.
                  ** destruct (B3 q Hq) as [a [r [La ->]]]. exists a, r. split; [lia|auto].
          * destruct (Skip x) as [b [B1 [B2 B3]]]; auto.
            { intros j y k' Hy Ek Fk' Ik. injection Ek as <-. tauto. }
            exists b. split; auto. split; auto. intros q Hq. destruct (B3 q Hq) as [a [r [L ->]]]. exists a, r. split; [lia|auto].
        + destruct (Skip x) as [b [B1 [B2 B3]]]; auto.
          { intros j y k' Hy Ek. discriminate. }
          exists b. split; auto. split; auto. intros q Hq. destruct (B3 q Hq) as [a [r [L ->]]]. exists a, r. split; [lia|auto]. }
    destruct (G ks 0 pts) as [b [B1 [B2 _]]]; auto.
    + intros j y Hy. apply (C [] (Node m d ks) y); auto. apply (Hin j y Hy).
    + exists b. split; auto.
  - exists [(p, map fst pts)]. split; auto. split; [|split].
    + intros q idx [H|[]]. injection H as <- <-. split; [destruct pts; [congruence|discriminate]|].
      exists [], (Node m d ks). rewrite app_nil_r. split; auto. split; auto. split.
      * split; auto. rewrite has_children_false in Hc. auto.
      * intros j Hj. apply in_map_iff in Hj. destruct Hj as [[j' x] [<- Hx]]. exists x. split; auto. apply (Hin _ _ Hx).
    + simpl. rewrite app_nil_r. apply Permutation_refl.
    + simpl. constructor; [intros []|constructor].
Qed.

Context (f : forest A).
Hypothesis HR : submesh_rooted f sf.
Hypothesis HC : forall p n x, fget f p = Some n -> fl_ok sf n -> has_children n sf = true -> inside (n_data n) x = true ->
  exists i k, nth_error (n_slots n) i = Some (Some k) /\ fl_ok sf k /\ inside (n_data k) x = true.

Lemma covered_at p n : p <> [] -> fget f p = Some n -> covered n.
Proof.
  intros Hp E r c x Er. apply (HC (p ++ r)). destruct p as [|i p]; [congruence|]. rewrite fget_app, E. auto.
Qed.
Lemma cell_bin_ok p n pts : p <> [] -> fget f p = Some n -> fl_ok sf n -> pts <> [] ->
  (forall j x, In (j, x) pts -> inside (n_data n) x = true) ->
  exists b, cell_bin_points inside sf f p pts = Ok b /\ bin_ok p n pts b.
Proof.
  intros Hp E F NE Hin. unfold cell_bin_points. destruct (bin_node_ok p F (covered_at Hp E) NE Hin) as [b [B1 B2]].
  exists b. split; auto.
  assert (E1 : forallb (fun ix => inside (n_data n) (snd ix)) pts = true).
  { apply forallb_forall. intros [j x] Hx. apply (Hin j x Hx). }
  destruct (ancestors p); cbn [bin_climb]; rewrite E, E1; cbn [negb]; destruct sf; auto; unfold fl_ok in F; rewrite F; auto.
Qed.

Definition root_of (rs : list (path * node A)) (x : P) : Prop := exists q n, In (q, n) rs /\ inside (n_data n) x = true.
Lemma mesh_bin_ok rs : forall x,
  (forall q n, In (q, n) rs -> exists i, q = [i] /\ fget f q = Some n /\ fl_ok sf n) -> NoDup (map fst rs) ->
  exists b y, mesh_bin inside sf f rs x = Ok (b, y) /\
   (forall q idx, In (q, idx) b -> idx <> [] /\ (exists c, fget f q = Some c /\ is_leaf_of sf c /\
        forall j, In j idx -> exists z, In (j, z) x /\ inside (n_data c) z = true) /\
        exists i r, q = i :: r /\ In [i] (map fst rs)) /\
   Permutation (flat_map snd b ++ map fst y) (map fst x) /\ NoDup (map fst b) /\
   (forall j z, In (j, z) y <-> In (j, z) x /\ ~ root_of rs z).
Proof.
  induction rs as [|[q n] rs IH]; intros x Hrs ND.
  - exists [], x. split; auto. split; [intros q idx []|]. split; [apply Permutation_refl|]. split; [constructor|].
    intros j z. split; [|tauto]. intro H. split; auto. intros [q [n [[] _]]].
  - destruct (Hrs q n (or_introl eq_refl)) as [i [-> [E F]]].
    inversion ND as [|? ? N1 N2]; subst.
    assert (Hrs' : forall q n, In (q, n) rs -> exists i, q = [i] /\ fget f q = Some n /\ fl_ok sf n) by (intros; apply Hrs; right; auto).
    cbn [mesh_bin].
    destruct (filter (fun ix => inside (n_data n) (snd ix)) x) as [|y0 ys] eqn:Ey.
    + destruct (IH x Hrs' N2) as [b [y [B1 [B2 [B3 [B4 B5]]]]]]. exists b, y. split; auto. split; [|split; auto].
      * intros q idx Hq. destruct (B2 q idx Hq) as [C1 [C2 [i' [r [-> C3]]]]]. split; auto. split; auto.
        exists i', r. split; auto. right; auto.
      * split; auto. intros j z. rewrite B5. split; intros [H1 H2]; split; auto.
        -- intros [q [n' [[Hq|Hq] Iz]]]; [|apply H2; exists q, n'; auto].
           injection Hq as <- <-. assert (In (j, z) (filter (fun ix => inside (n_data n) (snd ix)) x)) by (apply filter_In; auto).
           rewrite Ey in H. destruct H.
        -- intros [q [n' [Hq Iz]]]. apply H2. exists q, n'. split; auto. right; auto.
    + rewrite <- Ey.
      destruct (@cell_bin_ok [i] n (filter (fun ix => inside (n_data n) (snd ix)) x)) as [b1 [B1 [K1 [K2 K3]]]]; auto.
      { discriminate. }
      { rewrite Ey; discriminate. }
      { intros j y Hy. apply filter_In in Hy. tauto. }
      destruct (IH (filter (fun ix => negb (inside (n_data n) (snd ix))) x) Hrs' N2) as [b2 [y [C1 [C2 [C3 [C4 C5]]]]]].
      rewrite B1; cbn [bind]. rewrite C1; cbn [bind]. exists (b1 ++ b2), y. split; auto. cbn [fst snd].
      assert (Q1 : forall q idx, In (q, idx) b1 -> exists r, q = i :: r).
      { intros q idx Hq. destruct (K1 _ _ Hq) as [_ [r [c [-> _]]]]. exists r. auto. }
      split; [|split; [|split]].
      * intros q idx Hq. apply in_app_or in Hq. destruct Hq as [Hq|Hq].
        -- destruct (K1 _ _ Hq) as [N3 [r [c [-> [Er [Lf Hj]]]]]]. split; auto. split.
           ++ exists c. split; [|split; auto].
              ** simpl in E |- *. destruct (nth_error f i); [|discriminate]. injection E as ->. auto.
              ** intros j Hj'. destruct (Hj j Hj') as [z [Hz Iz]]. apply filter_In in Hz. exists z. tauto.
           ++ exists i, r. split; auto. left; auto.
        -- destruct (C2 _ _ Hq) as [N3 [[c [Er [Lf Hj]]] [i' [r [-> Hi']]]]]. split; auto. split.
           ++ exists c. split; auto. split; auto.
              intros j Hj'. destruct (Hj j Hj') as [z [Hz Iz]]. apply filter_In in Hz. exists z. tauto.
           ++ exists i', r. split; auto. right; auto.
      * rewrite flat_map_app, <- app_assoc. etransitivity; [apply Permutation_app; [exact K2|exact C3]|].
        rewrite <- map_app. apply Permutation_map. symmetry. apply filter_perm.
      * rewrite map_app. apply nodup_app; auto. intros q H1 H2.
        apply in_map_iff in H1. destruct H1 as [[q1 i1] [<- H1]]. apply in_map_iff in H2. destruct H2 as [[q2 i2] [E2 H2]].
        cbn [fst] in *. destruct (Q1 _ _ H1) as [r ->]. destruct (C2 _ _ H2) as [_ [_ [i' [r' [E3 Hi']]]]].
        apply N1. replace i with i'; auto. congruence.
      * intros j z. rewrite C5, filter_In. cbn [snd]. split.
        -- intros [[H1 H2] H3]. split; auto. intros [q [n' [[Hq|Hq] Iz]]]; [|apply H3; exists q, n'; auto].
           injection Hq as <- <-. rewrite Iz in H2. discriminate.
        -- intros [H1 H2]. split; [split; auto|].
           ++ destruct (inside (n_data n) z) eqn:Iz; auto. exfalso. apply H2. exists [i], n. split; auto. left; auto.
           ++ intros [q [n' [Hq Iz]]]. apply H2. exists q, n'. split; auto. right; auto.
Qed.
End Bin.

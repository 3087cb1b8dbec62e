(** * The loop of balance (for C29) *)
From Coq Require Import List Arith Bool Lia QArith.
From Verif Require Import Tree Forest LabelFacts Geom SpecGeom Dcel SpecDcel Quad SpecForest TreeFacts ForestFacts QuadFacts QuadSplit QuadInv SpecQuad QuadNb QuadGeomFacts QuadCoords QuadHist BalSets QuadBal Prop_QuadMesh.
Import ListNotations.
Open Scope nat_scope.

(** ** the queue *)
Lemma in_add_path q p x : In x (add_path q p) <-> In x q \/ x = p.
Proof.
  unfold add_path. destruct (in_dec (list_eq_dec Nat.eq_dec) p q) as [H|H].
  - split; auto. intros [?| ->]; auto.
  - rewrite in_app_iff. simpl. intuition.
Qed.
Lemma in_add_paths add q x : In x (fold_left add_path add q) <-> In x q \/ In x add.
Proof.
  revert q; induction add as [|p add IH]; intros q; simpl; [tauto|]. rewrite IH, in_add_path. intuition.
Qed.
Lemma length_add_paths add q : length (fold_left add_path add q) <= length q + length add.
Proof.
  revert q; induction add as [|p add IH]; intros q; simpl; [lia|]. specialize (IH (add_path q p)). unfold add_path in *.
  destruct (in_dec (list_eq_dec Nat.eq_dec) p q); [lia|]. rewrite app_length in IH. simpl in IH. lia.
Qed.
Lemma remove_at_split {X} i (l : list X) p : nth_error l i = Some p -> exists a b, l = a ++ p :: b /\ remove_at i l = a ++ b.
Proof.
  intros E. apply nth_error_split in E. destruct E as [a [b [-> <-]]]. exists a, b. split; auto. unfold remove_at.
  rewrite firstn_app, Nat.sub_diag, firstn_all. cbn [firstn]. rewrite app_nil_r. f_equal.
  rewrite skipn_app. replace (S (length a) - length a) with 1 by lia. rewrite (skipn_all2 a) by lia. auto.
Qed.

(** ** a general principle *)
Lemma loop_ind fl (J : mesh2 -> list path -> Prop) (mu : mesh2 -> list path -> nat) (sel : list path -> nat -> Prop) (pick : nat -> list path -> nat) :
  (forall k q, q <> [] -> sel q (pick k q mod length q)) ->
  (forall m q i p, J m q -> nth_error q i = Some p -> sel q i ->
     exists m' add, balance_step fl p m = Ok (m', add) /\ J m' (fold_left add_path add (remove_at i q)) /\
       mu m' (fold_left add_path add (remove_at i q)) < mu m q) ->
  forall fuel m q, J m q -> mu m q < fuel -> exists m', balance_loop fuel pick fl q m = Ok m' /\ J m' [].
Proof.
  intros Sel Step. induction fuel as [|fuel IH]; intros m q Jq Lf; [lia|]. cbn [balance_loop]. destruct q as [|p0 q]; [eauto|].
  set (qq := p0 :: q) in *. set (i := pick fuel qq mod length qq).
  assert (Li : i < length qq) by (apply Nat.mod_upper_bound; discriminate).
  assert (E : nth_error qq i = Some (nth i qq p0)) by (apply nth_error_nth'; auto).
  destruct (Step m qq i _ Jq E) as [m' [add [ES [J' M']]]]; [apply Sel; discriminate|].
  rewrite ES. cbn [bind fst snd]. apply IH; auto. lia.
Qed.

(** ** all possible cells *)
Fixpoint lev (n d : nat) : list path :=
  match d with 0 => map (fun r => [r]) (seq 0 n) | S d => flat_map (fun p => map (fun i => p ++ [i]) [0; 1; 2; 3]) (lev n d) end.
Definition univ (n D : nat) : list path := nodup (list_eq_dec Nat.eq_dec) (flat_map (lev n) (seq 0 D)).
Lemma here_lev pts faces m p : minv pts faces m -> here m p -> In p (lev (length faces) (length p - 1)).
Proof.
  intros M. induction p as [|i p IH] using rev_ind; intros H; [destruct (path_nonempty [] H); auto|]. destruct p as [|a p].
  - apply (m_roots _ _ _ M) in H. apply (in_map (fun r => [r])). apply in_seq. lia.
  - assert (N : a :: p <> []) by discriminate. set (u := a :: p) in *.
    destruct (s_fam m (m_s _ _ _ M) u i N H) as [Li _]. specialize (IH (here_parent m u i N H)).
    assert (Lu : length u = S (length p)) by reflexivity.
    rewrite app_length. cbn [length]. replace (length u + 1 - 1) with (S (length u - 1)) by lia. cbn [lev].
    apply in_flat_map. exists u. split; auto. apply (in_map (fun i => u ++ [i])). simpl. lia.
Qed.
Lemma here_univ pts faces m p D : minv pts faces m -> here m p -> length p <= D -> In p (univ (length faces) D).
Proof.
  intros M H L. apply nodup_In. apply in_flat_map. exists (length p - 1). split; [|eapply here_lev; eauto].
  apply in_seq. pose proof (path_nonempty p H). destruct p; [congruence|]. simpl in *. lia.
Qed.
Lemma filter_grow {X} (f g : X -> bool) (l u : list X) : NoDup u -> NoDup l -> (forall x, f x = true -> g x = true) ->
  (forall x, In x l -> In x u /\ f x = false /\ g x = true) -> length (filter f u) + length l <= length (filter g u).
Proof.
  intros Nu Nl Fg Hl. rewrite <- app_length. apply NoDup_incl_length.
  - apply nodup_app; [apply NoDup_filter; auto|auto|]. intros x Hx Hx'. apply filter_In in Hx. destruct (Hl x Hx') as [_ [E _]]. destruct Hx. congruence.
  - intros x Hx. apply in_app_iff in Hx. apply filter_In. destruct Hx as [Hx|Hx]; [apply filter_In in Hx; destruct Hx; auto|]. destruct (Hl x Hx) as [? [? ?]]. auto.
Qed.
Lemma filter_le {X} (f : X -> bool) l : length (filter f l) <= length l.
Proof. induction l; simpl; auto. destruct (f a); simpl; lia. Qed.

(** ** finite depth *)
Lemma depth_bound m : exists D, forall p, here m p -> length p <= D.
Proof.
  exists (fold_right Nat.max 0 (map (fun c => length (fst c)) (ftraverse (cells m) None BreadthFirst))). intros p H. apply here_fget in H. destruct H as [n F].
  assert (Hi : In (p, n) (ftraverse (cells m) None BreadthFirst)) by (apply in_ftraverse; simpl; auto).
  revert Hi. induction (ftraverse (cells m) None BreadthFirst) as [|c l IH]; [intros []|]. intros [->|Hi]; simpl; [lia|]. specialize (IH Hi). lia.
Qed.

Lemma edits_trans m m' m'' : edits m m' -> edits m' m'' -> edits m m''.
Proof. intros A B. induction B; auto. eapply ed_more; [apply IHB; auto|eassumption]. Qed.

Section LOOP.
Context (pts : list pt) (faces : list (list nat)) (m0 : mesh2).
Context (CVX : forall fc, In fc faces -> convex (face_quad pts fc)).
Context (fl : option flag).
Local Notation A := (face_adj faces).

Lemma history_convex m p : mesh_history pts faces m0 m -> here m p -> convex (cquad m p).
Proof.
  intros H Hp. pose proof (history_minv _ _ _ _ H) as M. apply here_fget in Hp. destruct Hp as [c Fp].
  rewrite <- (coords_quad m p c (m_s _ _ _ M) Fp). eapply C28_convex; eauto.
Qed.
Lemma history_edits m m' : mesh_history pts faces m0 m -> edits m m' -> mesh_history pts faces m0 m'.
Proof. intros [h1 [h2 [h3 h4]]] E. split; auto. split; auto. split; auto. eapply edits_trans; eauto. Qed.
Lemma history_coarse m p : mesh_history pts faces m0 m -> (too_coarse (radj m) (insub m fl) p <-> too_coarse A (insub m fl) p).
Proof.
  intros H. pose proof (history_minv _ _ _ _ H) as M. destruct H as [_ [QF _]].
  split; apply too_coarse_adj; intros r k r' j; apply (adj_faces pts faces m QF M).
Qed.
Lemma A_lt m : mesh_history pts faces m0 m -> forall r k r' j, A r k r' j -> k < 4 /\ j < 4.
Proof.
  intros H r k r' j Z. pose proof (history_minv _ _ _ _ H) as M. destruct H as [_ [QF _]].
  apply (adj_faces pts faces m QF M) in Z. apply (radj_lt _ _ _ _ Z).
Qed.
Lemma A_sym m : mesh_history pts faces m0 m -> forall r k r' j, A r k r' j -> A r' j r k.
Proof.
  intros H r k r' j Z. pose proof (history_minv _ _ _ _ H) as M. destruct H as [_ [QF _]].
  apply (adj_faces pts faces m QF M) in Z. apply (adj_faces pts faces m QF M). apply (radj_sym (m_s _ _ _ M)). auto.
Qed.
Lemma A_here m : mesh_history pts faces m0 m -> forall r k r' j, A r k r' j -> here m [r].
Proof.
  intros H r k r' j Z. pose proof (history_minv _ _ _ _ H) as M. destruct H as [_ [QF _]].
  apply (adj_faces pts faces m QF M) in Z. apply Z.
Qed.

(** the step in terms of the faces *)
Record refined (p : path) (m m' : mesh2) (add : list path) : Prop := {
  f_coarse : too_coarse A (insub m fl) p;
  f_leaf : forall i, ~ insub m fl (p ++ [i]);
  f_edits : edits m m';
  f_kept : kept fl m m';
  f_here : forall q, here m' q <-> here m q \/ exists i, i < 4 /\ q = p ++ [i];
  f_sub : forall q, insub m' fl q <-> insub m fl q \/ exists i, i < 4 /\ q = p ++ [i];
  f_add : forall v, In v add <-> (exists i, i < 4 /\ v = p ++ [i]) \/
                          (here m' v /\ exists u i j k, u <> [] /\ p = u ++ [i] /\ touches j i /\ nb A u j v k);
  f_length : length add <= 8 }.
Lemma step_cases m p : mesh_history pts faces m0 m -> here m p -> exists m' add, balance_step fl p m = Ok (m', add) /\
  (((~ too_coarse A (insub m fl) p \/ exists i, insub m fl (p ++ [i])) /\ m' = m /\ add = []) \/ refined p m m' add).
Proof.
  intros H Hp. pose proof (history_minv _ _ _ _ H) as M. pose proof H as H'. destruct H' as [_ [QF _]].
  destruct (balance_step_spec fl p m (m_s _ _ _ M) Hp (history_convex m p H Hp)) as [m' [add [E R]]].
  exists m', add. split; auto. rewrite <- (history_coarse m p H). destruct R as [R|R]; [left; auto|right].
  destruct R as [a1 [a2 [a3 [a4 [a5 [a6 [a7 [a8 [a9 a10]]]]]]]]]. constructor; auto.
  - apply (history_coarse m p H); auto.
  - intros v. rewrite a9. split; (intros [?|[Hv [u [i [j [k [Nu [E1 [Ti N]]]]]]]]]; [left; auto|right; split; auto; exists u, i, j, k; repeat split; auto; apply (nb_faces pts faces m QF M); auto]).
Qed.

(** ** termination *)
Definition inb (m : mesh2) (q : path) : bool := if insub_dec m fl q then true else false.
Lemma inb_iff m q : inb m q = true <-> insub m fl q.
Proof. unfold inb. destruct (insub_dec m fl q); split; auto; discriminate. Qed.
Definition mu (D : nat) (m : mesh2) (q : list path) : nat :=
  2 * (length (univ (length faces) D) - length (filter (inb m) (univ (length faces) D))) + length q.
Record base_inv (D : nat) (ms m : mesh2) (q : list path) : Prop := {
  b_hist : mesh_history pts faces m0 m;
  b_q : forall p, In p q -> here m p;
  b_kept : kept fl ms m;
  b_edits : edits ms m;
  b_deep : forall p, insub m fl p -> length p <= D;
  b_new : forall p, here m p -> here ms p \/ insub m fl p;
  b_old : forall p, here ms p -> here m p }.
Lemma kids_nodup (p : path) : NoDup (map (fun i => p ++ [i]) [0; 1; 2; 3]).
Proof.
  apply FinFun.Injective_map_NoDup; [intros x y E; apply app_inj_tail in E; tauto|]. repeat constructor; simpl; lia.
Qed.
Lemma in_removed {X} i (q : list X) p x : nth_error q i = Some p -> In x (remove_at i q) -> In x q.
Proof. intros E H. destruct (remove_at_split i q p E) as [a [b [-> Er]]]. rewrite Er in H. apply in_app_iff in H. apply in_app_iff. simpl. tauto. Qed.
Lemma in_rest {X} i (q : list X) p x : nth_error q i = Some p -> In x q -> x = p \/ In x (remove_at i q).
Proof. intros E H. destruct (remove_at_split i q p E) as [a [b [-> Er]]]. rewrite Er. apply in_app_iff in H. simpl in H. rewrite in_app_iff. destruct H as [?|[?|?]]; auto. Qed.
Lemma length_removed {X} i (q : list X) p : nth_error q i = Some p -> S (length (remove_at i q)) = length q.
Proof. intros E. destruct (remove_at_split i q p E) as [a [b [-> Er]]]. rewrite Er, !app_length. simpl. lia. Qed.

Lemma base_step D ms m q i p : base_inv D ms m q -> nth_error q i = Some p ->
  exists m' add, balance_step fl p m = Ok (m', add) /\
    (((~ too_coarse A (insub m fl) p \/ exists i, insub m fl (p ++ [i])) /\ m' = m /\ add = []) \/ refined p m m' add) /\
    base_inv D ms m' (fold_left add_path add (remove_at i q)) /\ mu D m' (fold_left add_path add (remove_at i q)) < mu D m q.
Proof.
  intros J E. assert (Hp : here m p) by (apply (b_q _ _ _ _ J); eapply nth_error_In; eauto).
  destruct (step_cases m p (b_hist _ _ _ _ J) Hp) as [m' [add [ES R]]]. exists m', add. split; auto. split; auto.
  pose proof (length_removed i q p E) as LR. destruct R as [[_ [-> ->]]|R].
  - cbn [fold_left]. destruct J as [a b c d e f g]. split.
    + constructor; auto. intros x Hx. apply b. eapply in_removed; eauto.
    + unfold mu. lia.
  - pose proof J as J'. destruct J as [a b c d e f g]. pose proof R as R'. destruct R as [r1 r2 r3 r4 r5 r6 r7 r8].
    assert (DK : length p + 2 <= D).
    { destruct r1 as [k [v [j [x [y [N [_ [_ [_ Sc]]]]]]]]]. apply e in Sc. rewrite app_length in Sc. cbn [length] in Sc. rewrite (nb_length _ _ _ _ _ N) in Sc. lia. }
    pose proof (history_edits m m' a r3) as H'. pose proof (history_minv _ _ _ _ H') as M'. split.
    + constructor; auto.
      * intros x Hx. apply in_add_paths in Hx. apply r5. destruct Hx as [Hx|Hx]; [left; apply b; eapply in_removed; eauto|].
        apply r7 in Hx. destruct Hx as [Hx|[Hx _]]; auto. apply r5; auto.
      * eapply kept_trans; eauto.
      * eapply edits_trans; eauto.
      * intros x Hx. apply r6 in Hx. destruct Hx as [Hx|[y [_ ->]]]; auto. rewrite app_length. simpl. lia.
      * intros x Hx. apply r5 in Hx. rewrite r6. destruct Hx as [Hx|Hx]; auto. destruct (f x Hx); auto.
      * intros x Hx. apply r5. left; auto.
    + unfold mu. pose proof (length_add_paths add (remove_at i q)).
      assert (G : length (filter (inb m) (univ (length faces) D)) + length (map (fun i => p ++ [i]) [0; 1; 2; 3]) <= length (filter (inb m') (univ (length faces) D))).
      { apply filter_grow; [apply NoDup_nodup|apply kids_nodup|intros x; rewrite !inb_iff, r6; auto|].
        intros x Hx. apply in_map_iff in Hx. destruct Hx as [y [<- Iy]]. assert (Ly : y < 4) by (simpl in Iy; lia). split; [|split].
        - eapply here_univ; [exact M'|apply r5; right; eauto|]. rewrite app_length. simpl. lia.
        - destruct (inb m (p ++ [y])) eqn:EB; auto. apply inb_iff in EB. destruct (r2 y EB).
        - apply inb_iff. apply r6. right; eauto. }
      rewrite map_length in G. cbn [length] in G. pose proof (filter_le (inb m') (univ (length faces) D)). lia.
Qed.

Theorem loop_terminates ms q : mesh_history pts faces m0 ms -> (forall p, In p q -> here ms p) ->
  exists bound, forall pick fuel, bound < fuel -> exists m', balance_loop fuel pick fl q ms = Ok m' /\ exists D, base_inv D ms m' [].
Proof.
  intros H Hq. destruct (depth_bound ms) as [D HD]. exists (mu D ms q). intros pick fuel Lf.
  destruct (loop_ind fl (base_inv D ms) (mu D) (fun _ _ => True) pick) with (fuel := fuel) (m := ms) (q := q) as [m' [E J]]; auto.
  - intros m q' i p J E _. destruct (base_step D ms m q' i p J E) as [m' [add [ES [_ [J' M']]]]]. eauto.
  - constructor; auto; [apply kept_refl|constructor|]. intros p Sp. apply HD. eapply insub_here; eauto.
  - eauto.
Qed.

(** ** the 2:1 rule *)
Record full_inv (whole : bool) (TT : path -> Prop) (D : nat) (ms m : mesh2) (q : list path) : Prop := {
  w_base : base_inv D ms m q;
  w_closed : closedS (insub m fl);
  w_roots : forall r, here m [r] -> insub m fl [r];
  w_queue : forall p, leafS (insub m fl) p -> too_coarse A (insub m fl) p -> In p q;
  w_out : forall v, In v q -> ~ insub m fl v -> exists k u j i c, nb A v k u j /\ touches j i /\ insub m fl (u ++ [i; c]);
  w_whole : whole = true -> forall p, here m p -> insub m fl p;
  w_least : forall p, insub m fl p -> TT p }.
Definition sel (whole : bool) (q : list path) (i : nat) : Prop :=
  whole = true \/ forall x p, nth_error q i = Some p -> In x q -> length p <= length x.
Lemma popped_in whole TT D ms m q i p : full_inv whole TT D ms m q -> nth_error q i = Some p -> sel whole q i -> insub m fl p.
Proof.
  intros J E Se. pose proof (nth_error_In _ _ E) as Ip. pose proof (w_base _ _ _ _ _ _ J) as Jb. pose proof (b_hist _ _ _ _ Jb) as H.
  destruct Se as [->|Mi]; [apply (w_whole _ _ _ _ _ _ J eq_refl); apply (b_q _ _ _ _ Jb); auto|].
  destruct (insub_dec m fl p) as [?|NS]; auto. exfalso.
  destruct (w_out _ _ _ _ _ _ J p Ip NS) as [k [u [j [x [c [N [Ti Sc]]]]]]].
  destruct (outside_coarse A (insub m fl) (w_closed _ _ _ _ _ _ J)) with (v := p) (k := k) (q := u) (j := j) (i := x) (c := c) as [w [r [-> [Nr [Lw Cw]]]]]; auto.
  - intros y. destruct (insub_dec m fl y); auto.
  - intros a b a' b' Z. apply (w_roots _ _ _ _ _ _ J). eapply (A_here m H); eauto.
  - apply (A_lt m H).
  - pose proof (w_queue _ _ _ _ _ _ J w Lw Cw) as Iw. specialize (Mi w _ E Iw). rewrite app_length in Mi. destruct r; [congruence|]. simpl in Mi. lia.
Qed.
Lemma full_step whole (TT : path -> Prop) D ms m q i p : (forall p, TT p -> too_coarse A TT p -> forall i, i < 4 -> TT (p ++ [i])) ->
  full_inv whole TT D ms m q -> nth_error q i = Some p -> sel whole q i ->
  exists m' add, balance_step fl p m = Ok (m', add) /\
    full_inv whole TT D ms m' (fold_left add_path add (remove_at i q)) /\ mu D m' (fold_left add_path add (remove_at i q)) < mu D m q.
Proof.
  intros HT J E Se. pose proof (popped_in _ _ _ _ _ _ _ _ J E Se) as Sp.
  destruct (base_step D ms m q i p (w_base _ _ _ _ _ _ J) E) as [m' [add [ES [R [Jb M']]]]]. exists m', add. split; auto. split; auto.
  destruct J as [ja jb jc jd je jf jg]. destruct R as [[NC [-> ->]]|R].
  - cbn [fold_left] in *. constructor; auto.
    + intros x Lx Cx. destruct (in_rest i q p x E (jd x Lx Cx)) as [->|?]; auto. exfalso. destruct NC as [NC|[y Sy]]; auto. destruct Lx as [_ Lx]. apply (Lx y Sy).
    + intros v Hv. apply je. eapply in_removed; eauto.
  - destruct R as [r1 r2 r3 r4 r5 r6 r7 r8]. pose proof (b_hist _ _ _ _ ja) as H. assert (Np : p <> []) by (apply (@path_nonempty m); eapply insub_here; eauto).
    assert (Cl : closedS (insub m' fl)).
    { constructor.
      - intros a x Na Sx. apply r6. left. apply r6 in Sx. destruct Sx as [Sx|[y [_ Ey]]]; [eapply (c_up _ jb); eauto|]. apply app_inj_tail in Ey. destruct Ey as [-> _]. auto.
      - intros a x y Na Sx Ly. apply r6 in Sx. apply r6. destruct Sx as [Sx|[z [_ Ez]]]; [left; eapply (c_sib _ jb); eauto|]. apply app_inj_tail in Ez. destruct Ez as [-> _]. eauto. }
    assert (NEA : forall q k' q' j', nb A q k' q' j' -> q' <> []) by (intros a b a' b' Z; apply (nb_nonempty _ _ _ _ _ Z)).
    constructor; auto.
    + intros r Hr. apply r6. apply r5 in Hr. destruct Hr as [Hr|Hr]; auto.
    + intros v Lv Cv. apply in_add_paths. destruct Lv as [Sv Lv]. apply r6 in Sv. destruct Sv as [Sv|Sv]; [|right; apply r7; left; auto].
      assert (Lv' : leafS (insub m fl) v) by (split; auto; intros y Sy; apply (Lv y); apply r6; auto).
      assert (vp : v <> p) by (intros ->; apply (Lv 0); apply r6; right; exists 0; auto with arith).
      apply (closed_coarse A _ v Cl NEA) in Cv. destruct Cv as [k [u [j [x [c [N [Ti Sc]]]]]]]. apply r6 in Sc. destruct Sc as [Sc|[y [_ Ey]]].
      * left. destruct (in_rest i q p v E) as [->|?]; auto; [|congruence]. apply jd; auto. apply (closed_coarse A _ v jb NEA). exists k, u, j, x, c. auto.
      * right. apply r7. right. rewrite app2 in Ey. apply app_inj_tail in Ey. destruct Ey as [<- <-]. split; [apply r5; left; eapply insub_here; eauto|].
        exists u, x, j, k. repeat split; auto; [apply (NEA _ _ _ _ N)|]. apply nb_sym; auto. apply (A_sym m H).
    + intros v Hv NS. apply in_add_paths in Hv. destruct Hv as [Hv|Hv].
      * assert (NS' : ~ insub m fl v) by (intros Z; apply NS; apply r6; auto).
        destruct (je v (in_removed i q p v E Hv) NS') as [k [u [j [x [c [N [Ti Sc]]]]]]]. exists k, u, j, x, c. repeat split; auto. apply r6; auto.
      * apply r7 in Hv. destruct Hv as [Hv|[_ [u [x [j [k [Nu [-> [Ti N]]]]]]]]]; [exfalso; apply NS; apply r6; auto|].
        exists k, u, j, x, 0. repeat split; auto; [apply nb_sym; auto; apply (A_sym m H)|]. apply r6. right. exists 0. rewrite app2. auto with arith.
    + intros W v Hv. apply r6. apply r5 in Hv. destruct Hv; auto.
    + intros v Sv. apply r6 in Sv. destruct Sv as [Sv|[y [Ly ->]]]; auto. apply HT; auto. eapply too_coarse_mono; [|exact r1]. auto.
Qed.
Theorem loop_balances whole (TT : path -> Prop) ms q pick fuel bound : mesh_history pts faces m0 ms ->
  (forall p, In p q <-> leafS (insub ms fl) p) -> closedS (insub ms fl) -> (forall r, here ms [r] -> insub ms fl [r]) ->
  (whole = true -> forall p, here ms p -> insub ms fl p) ->
  (forall p, insub ms fl p -> TT p) -> (forall p, TT p -> too_coarse A TT p -> forall i, i < 4 -> TT (p ++ [i])) ->
  (forall k q, q <> [] -> sel whole q (pick k q mod length q)) ->
  (exists D, (forall p, here ms p -> length p <= D) /\ mu D ms q <= bound) -> bound < fuel ->
  exists m' D, balance_loop fuel pick fl q ms = Ok m' /\ full_inv whole TT D ms m' [].
Proof.
  intros H Hq Cl Rt Wh Ht1 Ht2 Se [D [HD MB]] Lf.
  destruct (loop_ind fl (full_inv whole TT D ms) (mu D) (sel whole) pick Se) with (fuel := fuel) (m := ms) (q := q) as [m' [E J]].
  - intros m q' i p J E Si. eapply full_step; eauto.
  - constructor; auto.
    + constructor; auto; [|apply kept_refl|constructor|].
      * intros p Ip. apply Hq in Ip. destruct Ip as [Sp _]. eapply insub_here; eauto.
      * intros p Sp. apply HD. eapply insub_here; eauto.
    + intros p Lp _. apply Hq; auto.
    + intros v Iv NS. apply Hq in Iv. destruct Iv as [Sv _]. contradiction.
  - lia.
  - exists m', D. auto.
Qed.
End LOOP.

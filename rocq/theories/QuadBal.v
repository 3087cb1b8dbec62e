(** * One step of balance (for C29) *)
From Coq Require Import List Arith Bool Lia QArith.
From Verif Require Import Tree Forest LabelFacts Geom SpecGeom Dcel SpecDcel Quad SpecForest TreeFacts ForestFacts QuadFacts QuadSplit QuadInv SpecQuad QuadNb QuadGeomFacts QuadCoords QuadHist BalSets.
Import ListNotations.
Open Scope nat_scope.

(** ** data and labels *)
Definition lab (f : forest (list nat)) (q : path) : option (list nat * list flag) :=
  option_map (fun n => (n_data n, labels n)) (fget f q).
Lemma lab_insub f f' fl q : lab f' q = lab f q -> (in_sub f' fl q <-> in_sub f fl q).
Proof.
  unfold lab, in_sub. destruct (fget f q) as [n|] eqn:E1, (fget f' q) as [n'|] eqn:E2; simpl; intros E; try discriminate.
  - injection E as _ E. split; intros [x [[= <-] H]]; eexists; (split; [reflexivity|]); destruct fl as [g|]; simpl in *; auto; unfold labels in E; [rewrite <- E|rewrite E]; auto.
  - tauto.
Qed.
Lemma lab_split fl p m n N : p <> [] -> fget (cells m) p = Some n -> has_children n None = false ->
  forall q, (forall i, i < 4 -> q <> p ++ [i]) -> lab (fupd p (fun _ => split_node fl N n) (cells m)) q = lab (cells m) q.
Proof.
  intros Np Fp HC q Hq. rewrite has_children_none in HC. destruct (prefix_dec p q) as [[r ->]|H1].
  - unfold lab. rewrite fget_fupd_below, Fp by auto. simpl. destruct p as [|a p]; [congruence|]. rewrite fget_app, Fp.
    destruct r as [|i r].
    + destruct n as [mt d ks]. simpl. unfold labels. simpl. unfold promote. destruct (ntype_eqb (m_type mt) LEAF); reflexivity.
    + cbn [nget]. destruct (nth_error (n_slots n) i) as [[k|]|] eqn:E; [exfalso; eapply HC; eauto| |];
      destruct n as [mt d ks]; cbn [split_node n_slots];
      (destruct i as [|[|[|[|i]]]]; [| | | |cbn [map nth_error]; destruct i; reflexivity]);
      (destruct r as [|j r]; [exfalso; match type of E with nth_error _ ?x = _ => apply (Hq x); [lia|reflexivity] end|]);
      cbn [map nth_error]; destruct fl; cbn; destruct j as [|[|[|[|j]]]]; try reflexivity; destruct j; reflexivity.
  - destruct (prefix_dec q p) as [[r ->]|H2].
    + destruct r as [|i r]; [exfalso; apply H1; rewrite app_nil_r; apply prefix_refl|].
      pose proof (fobs_fupd_above q i r (fun _ => split_node fl N n) (cells m)) as H. unfold fobs in H. unfold lab.
      destruct (fget (fupd (q ++ i :: r) (fun _ => split_node fl N n) (cells m)) q) as [a|], (fget (cells m) q) as [b|]; simpl in *; try discriminate; auto.
      unfold obs in H. injection H as E1 E2 _. unfold labels. congruence.
    + unfold lab. rewrite fget_fupd_off; auto.
Qed.
Lemma split_kid_sub fl p m n N i : p <> [] -> fget (cells m) p = Some n -> i < 4 ->
  in_sub (fupd p (fun _ => split_node fl N n) (cells m)) fl (p ++ [i]).
Proof.
  intros Np Fp Li. unfold in_sub. rewrite fget_fupd_below, Fp by auto. cbn [option_map nget]. destruct n as [mt d ks]. cbn [split_node n_slots].
  destruct i as [|[|[|[|i]]]]; try lia; cbn [map nth_error]; eexists; (split; [reflexivity|]); destruct fl as [g|]; simpl; auto; rewrite Nat.eqb_refl; auto.
Qed.

(** ** marking the children one after the other *)
Lemma nupd_app {A} p r (g : node A -> node A) n : nupd (p ++ r) g n = nupd p (nupd r g) n.
Proof.
  revert n; induction p as [|i p IH]; intros n; [reflexivity|]. destruct n as [mt d ks]. cbn [app nupd].
  destruct (nth_error ks i) as [[k|]|]; auto. rewrite IH. auto.
Qed.
Lemma nupd_nupd {A} p (a b : node A -> node A) n : nupd p a (nupd p b n) = nupd p (fun x => a (b x)) n.
Proof.
  revert n; induction p as [|i p IH]; intros n; [reflexivity|]. destruct n as [mt d ks]. cbn [nupd].
  destruct (nth_error ks i) as [[k|]|] eqn:E; cbn [nupd]; [|rewrite E; auto..].
  rewrite nth_set_nth_eq by (apply nth_error_Some; congruence). rewrite set_nth_twice, IH. auto.
Qed.
Lemma nupd_at {A} p (a b : node A -> node A) n x : nget n p = Some x -> a x = b x -> nupd p a n = nupd p b n.
Proof.
  revert n; induction p as [|i p IH]; intros n; cbn [nget nupd]; [intros [= ->]; auto|]. destruct n as [mt d ks]. cbn [n_slots].
  destruct (nth_error ks i) as [[k|]|]; auto. intros H E. rewrite (IH k H E). auto.
Qed.
Lemma fupd_app {A} p r (g : node A -> node A) f : p <> [] -> fupd (p ++ r) g f = fupd p (nupd r g) f.
Proof. destruct p as [|i p]; [congruence|]. intros _. simpl. destruct (nth_error f i); auto. rewrite nupd_app. auto. Qed.
Lemma fupd_fupd {A} p (a b : node A -> node A) f : fupd p a (fupd p b f) = fupd p (fun x => a (b x)) f.
Proof.
  destruct p as [|i p]; simpl; auto. destruct (nth_error f i) as [t|] eqn:E; [|rewrite E; auto].
  rewrite nth_set_nth_eq by (apply nth_error_Some; congruence). rewrite set_nth_twice, nupd_nupd. auto.
Qed.
Lemma fupd_at {A} p (a b : node A -> node A) f x : fget f p = Some x -> a x = b x -> fupd p a f = fupd p b f.
Proof. destruct p as [|i p]; simpl; auto. destruct (nth_error f i); auto. intros H E. rewrite (nupd_at p a b _ x H E). auto. Qed.

Definition mark_kids (g : flag) (p : path) (f : forest (list nat)) : forest (list nat) :=
  fupd (p ++ [3]) (mark_here g) (fupd (p ++ [2]) (mark_here g) (fupd (p ++ [1]) (mark_here g) (fupd (p ++ [0]) (mark_here g) f))).
Lemma map_kids_marks g p (f : forest (list nat)) n : p <> [] -> fget f p = Some n -> length (n_slots n) = 4 ->
  fupd p (map_kids (mark_here g)) f = mark_kids g p f.
Proof.
  intros Np Fp L4. unfold mark_kids. rewrite !fupd_app by auto. rewrite !fupd_fupd. apply (fupd_at p _ _ f n Fp).
  destruct n as [mt d ks]. cbn [n_slots] in L4. destruct ks as [|k0 [|k1 [|k2 [|k3 [|]]]]]; simpl in L4; try lia.
  cbn [map_kids map nupd nth_error]. destruct k0 as [k0|]; cbn [nupd nth_error set_nth];
  destruct k1 as [k1|]; cbn [nupd nth_error set_nth]; destruct k2 as [k2|]; cbn [nupd nth_error set_nth];
  destruct k3 as [k3|]; cbn [nupd nth_error set_nth]; reflexivity.
Qed.
Lemma mark_lab g p (f : forest (list nat)) q : q <> p -> lab (fupd p (mark_here g) f) q = lab f q.
Proof.
  intros N. pose proof (fupd_label p f q (@keeps_mark (list nat) g)) as H. destruct (list_eq_dec Nat.eq_dec p q); [congruence|].
  unfold fobs in H. unfold lab. destruct (fget (fupd p (mark_here g) f) q) as [a|], (fget f q) as [b|]; simpl in *; try discriminate; auto.
  unfold obs in H. injection H as E1 E2 _. unfold labels. congruence.
Qed.
Lemma mark_lab_at g p (f : forest (list nat)) : lab (fupd p (mark_here g) f) p = option_map (fun x => (fst x, add_flag g (snd x))) (lab f p).
Proof. unfold lab. rewrite fget_fupd_same. destruct (fget f p) as [[mt d ks]|]; reflexivity. Qed.
Lemma snoc_ne (p : path) i j : i <> j -> p ++ [i] <> p ++ [j].
Proof. intros N E. apply app_inj_tail in E. destruct E; auto. Qed.
Lemma mark_kids_lab g p f q : (forall i, i < 4 -> q <> p ++ [i]) -> lab (mark_kids g p f) q = lab f q.
Proof. intros H. unfold mark_kids. rewrite !mark_lab by (apply H; lia). auto. Qed.
Lemma mark_kids_lab_at g p f i : i < 4 -> lab (mark_kids g p f) (p ++ [i]) = option_map (fun x => (fst x, add_flag g (snd x))) (lab f (p ++ [i])).
Proof.
  intros Li. unfold mark_kids. destruct i as [|[|[|[|i]]]]; [| | | |lia];
  repeat (rewrite mark_lab by (apply snoc_ne; discriminate)); rewrite mark_lab_at; repeat (rewrite mark_lab by (apply snoc_ne; discriminate)); auto.
Qed.
Lemma lab_kid_sub g f q : lab f q <> None -> in_sub (fupd q (mark_here g) f) (Some g) q.
Proof.
  unfold lab, in_sub. rewrite fget_fupd_same. destruct (fget f q) as [n|]; [|simpl; congruence]. intros _. exists (mark_here g n). split; auto.
  destruct n as [mt d ks]. simpl. change (mem_flag g (add_flag g (m_flags mt)) = true). rewrite mem_add, Nat.eqb_refl. auto.
Qed.

(** ** what is kept *)
Lemma kept_refl fl m : kept fl m m.
Proof. intros p c F. exists c. repeat split; auto. Qed.
Lemma kept_trans fl m m' m'' : kept fl m m' -> kept fl m' m'' -> kept fl m m''.
Proof.
  intros A B p c F. destruct (A p c F) as [c' [F' [D' L']]]. destruct (B p c' F') as [c'' [F'' [D'' L'']]].
  exists c''. split; auto. split; [congruence|]. intros g. destruct (L' g) as [l1 l2]. destruct (L'' g) as [l3 l4]. split; auto.
  intros N. rewrite l4, l2; auto.
Qed.
Lemma lab_kept fl m m' : (forall q x, lab (cells m) q = Some x -> lab (cells m') q = Some x \/ exists g, fl = Some g /\ lab (cells m') q = Some (fst x, add_flag g (snd x))) ->
  kept fl m m'.
Proof.
  intros H p c F. specialize (H p (n_data c, labels c)). unfold lab in H. rewrite F in H. specialize (H eq_refl).
  destruct (fget (cells m') p) as [c'|]; [|destruct H as [H|[g [_ H]]]; discriminate]. exists c'. split; auto. simpl in H.
  destruct H as [H|[g [Ef H]]].
  - injection H as E1 E2. split; auto. intros g. unfold has_label. rewrite E2. auto.
  - injection H as E1 E2. split; auto. intros g'. unfold has_label. rewrite E2. rewrite mem_add. split.
    + intros ->. apply orb_true_r.
    + intros N. destruct (Nat.eqb_spec g' g); [subst; congruence|]. auto.
Qed.
Lemma kept_sub fl m m' p : kept fl m m' -> in_sub (cells m) fl p -> in_sub (cells m') fl p.
Proof.
  intros A [c [F H]]. destruct (A p c F) as [c' [F' [_ L]]]. exists c'. split; auto. destruct fl as [g|]; simpl in *; auto.
  change (has_label g c' = true). apply L. auto.
Qed.

(** ** one step *)
Lemma parent_twin_spec m p n v : sinv m -> fget (cells m) p = Some n ->
  (In v (parent_twin_cells m (n_data n)) <-> here m v /\ exists u i j k, u <> [] /\ p = u ++ [i] /\ touches j i /\ nb (radj m) u j v k).
Proof.
  intros I Fp. assert (Hp : here m p) by (apply here_fget; eauto). rewrite (data_sides I p n Fp). unfold parent_twin_cells. rewrite in_flat_map. split.
  - intros [h [Ih Iv]]. apply in_map_iff in Ih. destruct Ih as [k [<- Ik]]. assert (Lk : k < 4) by (simpl in Ik; lia). clear Ik.
    destruct p as [|i u _] using rev_ind; [destruct (path_nonempty [] Hp); auto|]. destruct u as [|a u].
    + change ([] ++ [i]) with [i] in *. rewrite (s_root m I i k Hp Lk) in Iv. destruct Iv.
    + assert (Nu : a :: u <> []) by discriminate. set (u' := a :: u) in *. pose proof (here_parent m u' i Nu Hp) as Hu.
      destruct (s_fam m I u' i Nu Hp) as [Li F].
      assert (TP : touches k i \/ P (hp m) (side m (u' ++ [i]) k) = None).
      { destruct (s_kids m I u' i Nu Hp) as [_ [_ [P1 P2]]]. unfold touches. clear - Li Lk P1 P2.
        destruct i as [|[|[|[|i]]]]; try lia; (destruct k as [|[|[|[|k]]]]; try lia); simpl in *; auto. }
      destruct TP as [TP|TP]; [|rewrite TP in Iv; destruct Iv].
      assert (PP : exists x, P (hp m) (side m (u' ++ [i]) k) = Some (side m u' k, x)).
      { destruct (s_kids m I u' k Nu (F k Lk)) as [EK _]. destruct (side_good I u' k Hu Lk) as [L _].
        destruct (i_k _ (s_h m I) _ _ _ L EK) as [_ [_ [P1 [P2 _]]]]. destruct TP as [->| ->]; eauto. }
      destruct PP as [x PP]. rewrite PP in Iv. destruct (T (hp m) (side m u' k)) as [t|] eqn:ET; [|destruct Iv].
      destruct (twin_side I u' k t Hu Lk ET) as [q [j [Hq [Lj [-> ET']]]]]. destruct (side_good I q j Hq Lj) as [_ [EC _]]. rewrite EC in Iv.
      destruct Iv as [<-|[]]. split; auto. exists u', i, k, j. repeat split; auto. apply (twin_nb I); auto.
  - intros [Hv [u [i [j [k [Nu [-> [Ti N]]]]]]]]. destruct (nb_sides _ _ _ _ _ radj_lt N) as [Lj [Lk _]].
    pose proof (here_parent m u i Nu Hp) as Hu. destruct (s_fam m I u i Nu Hp) as [Li F].
    exists (side m (u ++ [i]) j). split; [apply in_map; simpl; lia|].
    assert (PP : exists x, P (hp m) (side m (u ++ [i]) j) = Some (side m u j, x)).
    { destruct (s_kids m I u j Nu (F j Lj)) as [EK _]. destruct (side_good I u j Hu Lj) as [L _].
      destruct (i_k _ (s_h m I) _ _ _ L EK) as [_ [_ [P1 [P2 _]]]]. destruct Ti as [->| ->]; eauto. }
    destruct PP as [x ->]. assert (ET : T (hp m) (side m u j) = Some (side m v k)) by (apply (twin_nb I); auto). rewrite ET.
    destruct (side_good I v k Hv Lk) as [_ [-> _]]. left; auto.
Qed.
Lemma parent_twin_length m hs : length (parent_twin_cells m hs) <= length hs.
Proof.
  unfold parent_twin_cells. induction hs as [|h hs IH]; simpl; auto. rewrite app_length.
  destruct (P (hp m) h) as [[q x]|]; simpl; [|lia]. destruct (T (hp m) q) as [t|]; simpl; [|lia]. destruct (C (hp m) t); simpl; lia.
Qed.
Lemma kids_of_here m p n : sinv m -> fget (cells m) p = Some n -> forall v, In v (map fst (kids_of p n)) <-> exists i, v = p ++ [i] /\ here m v.
Proof.
  intros I Fp v. assert (Np : p <> []) by (apply (@path_nonempty m); apply here_fget; eauto). rewrite in_map_iff. split.
  - intros [[v' k] [E Ik]]. simpl in E. subst v'. apply in_kids_of in Ik. destruct Ik as [i [-> Ei]]. exists i. split; auto. apply here_fget. exists k.
    rewrite fget_snoc, Fp, Ei by auto. auto.
  - intros [i [-> Hi]]. apply here_fget in Hi. destruct Hi as [k Fk]. exists (p ++ [i], k). split; auto. apply in_kids_of. exists i. split; auto.
    rewrite fget_snoc, Fp in Fk by auto. destruct (nth_error (n_slots n) i) as [[o|]|]; congruence.
Qed.
Lemma kids_of_length {A} p (n : node A) : length (kids_of p n) <= length (n_slots n).
Proof.
  unfold kids_of. rewrite map_length. generalize 0. induction (n_slots n) as [|[k|] ks IH]; intros i; simpl; auto. specialize (IH (S i)). lia.
Qed.
Definition new_sub (fl : option flag) (p : path) (m m' : mesh2) (add : list path) : Prop :=
  too_coarse (radj m) (insub m fl) p /\ (forall i, ~ insub m fl (p ++ [i])) /\
  edits m m' /\ kept fl m m' /\ sinv m' /\ (forall r k r' j, radj m' r k r' j <-> radj m r k r' j) /\
  (forall q, here m' q <-> here m q \/ exists i, i < 4 /\ q = p ++ [i]) /\
  (forall q, insub m' fl q <-> insub m fl q \/ exists i, i < 4 /\ q = p ++ [i]) /\
  (forall v, In v add <-> (exists i, i < 4 /\ v = p ++ [i]) \/
                          (here m' v /\ exists u i j k, u <> [] /\ p = u ++ [i] /\ touches j i /\ nb (radj m) u j v k)) /\
  length add <= 8.
Lemma balance_step_spec fl p m : sinv m -> here m p -> convex (cquad m p) ->
  exists m' add, balance_step fl p m = Ok (m', add) /\
    (((~ too_coarse (radj m) (insub m fl) p \/ exists i, insub m fl (p ++ [i])) /\ m' = m /\ add = []) \/ new_sub fl p m m' add).
Proof.
  intros I Hp CV. unfold balance_step. destruct (cell_too_fine_spec I p fl Hp) as [b [-> Eb]]. cbn [bind].
  destruct (proj1 (here_fget m p) Hp) as [n Fp]. rewrite Fp. pose proof (path_nonempty p Hp) as Np.
  pose proof (has_kids_sub (cells m) p n fl Np Fp) as HK.
  assert (EI : info (cells m) p = Some (n_data n, length (n_slots n), m_regular (n_meta n))) by (unfold info; rewrite Fp; auto).
  destruct (s_cell m I _ _ _ _ EI) as [[D4 _] [L4 _]].
  destruct b; [|exists m, []; split; [reflexivity|left; split; auto; left; intros Z; apply Eb in Z; discriminate]].
  destruct (has_children n fl) eqn:HC; [exists m, []; split; [reflexivity|left; split; auto; right; apply HK; auto]|]. cbn [andb negb].
  assert (TC : too_coarse (radj m) (insub m fl) p) by (apply Eb; auto).
  assert (NK : forall i, ~ insub m fl (p ++ [i])) by (intros i Z; assert (X : false = true) by (apply HK; eauto); discriminate).
  (* the added cells *)
  assert (ADD : forall m' n', sinv m' -> fget (cells m') p = Some n' -> n_data n' = n_data n -> (forall i, i < 4 -> here m' (p ++ [i])) ->
     (forall r k r' j, radj m' r k r' j <-> radj m r k r' j) ->
     (forall v, In v (map fst (kids_of p n') ++ parent_twin_cells m' (n_data n)) <-> (exists i, i < 4 /\ v = p ++ [i]) \/
                          (here m' v /\ exists u i j k, u <> [] /\ p = u ++ [i] /\ touches j i /\ nb (radj m) u j v k)) /\
     length (map fst (kids_of p n') ++ parent_twin_cells m' (n_data n)) <= 8).
  { intros m' n' I' F' ED Hk AD. split.
    - intros v. rewrite in_app_iff, (kids_of_here m' p n' I' F' v). rewrite <- ED, (parent_twin_spec m' p n' v I' F'). split.
      + intros [[i [-> Hi]]|[Hv [u [i [j [k [Nu [E [Ti N]]]]]]]]].
        * left. exists i. split; auto. apply (s_fam m' I' p i Np Hi).
        * right. split; auto. exists u, i, j, k. repeat split; auto. eapply nb_adj; [|exact N]. apply AD.
      + intros [[i [Li ->]]|[Hv [u [i [j [k [Nu [E [Ti N]]]]]]]]].
        * left. exists i. auto.
        * right. split; auto. exists u, i, j, k. repeat split; auto. eapply nb_adj; [|exact N]. apply AD.
    - rewrite app_length, map_length. pose proof (kids_of_length p n'). pose proof (parent_twin_length m' (n_data n)).
      assert (EI' : info (cells m') p = Some (n_data n', length (n_slots n'), m_regular (n_meta n'))) by (unfold info; rewrite F'; auto).
      destruct (s_cell m' I' _ _ _ _ EI') as [_ [L4' _]]. lia. }
  destruct (has_children n None) eqn:HN.
  - (* existing children are marked *)
    destruct fl as [g|]; [|congruence]. cbn [bind].
    rewrite (map_kids_marks g p (cells m) n Np Fp L4). set (m' := mkMesh (hp m) (mark_kids g p (cells m))).
    assert (EI' : forall q, info (cells m') q = info (cells m) q) by (intros q; unfold m', mark_kids; cbn [cells]; rewrite !mark_info; auto).
    assert (I' : sinv m') by (apply (sinv_ext m); auto).
    assert (HH : forall q, here m' q <-> here m q) by (intros q; apply here_ext; apply EI').
    assert (SS : forall q k, side m' q k = side m q k) by (intros q k; apply side_ext; apply EI').
    assert (AD : forall r k r' j, radj m' r k r' j <-> radj m r k r' j).
    { intros r k r' j. unfold radj. rewrite !HH, !SS. unfold m'. cbn [hp]. tauto. }
    assert (Fm : exists n', fget (cells m') p = Some n' /\ n_data n' = n_data n).
    { pose proof (EI' p) as E. unfold info in E. rewrite Fp in E. destruct (fget (cells m') p) as [n'|]; simpl in E; [|discriminate]. exists n'. split; auto. congruence. }
    destruct Fm as [n' [Fp' ED]]. rewrite Fp'.
    assert (HKs : forall i, i < 4 -> here m (p ++ [i])).
    { destruct (kids_dec I p Hp) as [Z|Z]; auto. exfalso. destruct (proj1 (has_kids_sub (cells m) p n None Np Fp) HN) as [x Hx]. apply (Z x). apply insub_None; auto. }
    assert (ED4 : edits m m').
    { set (f0 := cells m). set (f1 := fupd (p ++ [0]) (mark_here g) f0). set (f2 := fupd (p ++ [1]) (mark_here g) f1). set (f3 := fupd (p ++ [2]) (mark_here g) f2).
      apply ed_more with (mkMesh (hp m) f3); [|exact (ed_mark g (p ++ [3]) (mkMesh (hp m) f3))].
      apply ed_more with (mkMesh (hp m) f2); [|exact (ed_mark g (p ++ [2]) (mkMesh (hp m) f2))].
      apply ed_more with (mkMesh (hp m) f1); [|exact (ed_mark g (p ++ [1]) (mkMesh (hp m) f1))].
      apply ed_more with m; [constructor|exact (ed_mark g (p ++ [0]) m)]. }
    assert (KP : kept (Some g) m m').
    { apply lab_kept. intros q x Ex. destruct (in_dec (list_eq_dec Nat.eq_dec) q (map (fun i => p ++ [i]) [0; 1; 2; 3])) as [Iq|Nq].
      - apply in_map_iff in Iq. destruct Iq as [i [<- Ii]]. assert (Li : i < 4) by (simpl in Ii; lia). right. exists g. split; auto.
        unfold m'. cbn [cells]. rewrite mark_kids_lab_at, Ex by auto. auto.
      - left. unfold m'. cbn [cells]. rewrite mark_kids_lab; auto. intros i Li ->. apply Nq. apply (in_map (fun i => p ++ [i])). simpl. lia. }
    exists m', (map fst (kids_of p n') ++ parent_twin_cells m' (n_data n)). split; [reflexivity|]. right.
    destruct (ADD m' n' I' Fp' ED ltac:(intros i Li; apply HH; auto) AD) as [A1 A2].
    split; [exact TC|]. split; [exact NK|]. split; [exact ED4|]. split; [exact KP|]. split; [exact I'|]. split; [exact AD|]. split; [|split; [|split; [exact A1|exact A2]]].
    + intros q. rewrite HH. split; auto. intros [?|[i [Li ->]]]; auto.
    + intros q. split.
      * intros Sq. destruct (in_dec (list_eq_dec Nat.eq_dec) q (map (fun i => p ++ [i]) [0; 1; 2; 3])) as [Iq|Nq].
        -- right. apply in_map_iff in Iq. destruct Iq as [i [<- Ii]]. exists i. split; auto. simpl in Ii; lia.
        -- left. revert Sq. apply lab_insub. unfold m'. cbn [cells]. rewrite mark_kids_lab; auto. intros i Li ->. apply Nq. apply (in_map (fun i => p ++ [i])). simpl. lia.
      * intros [Sq|[i [Li ->]]]; [apply (kept_sub _ _ _ _ KP Sq)|].
        pose proof (mark_kids_lab_at g p (cells m) i Li) as EL. pose proof (HKs i Li) as Hi. apply here_fget in Hi. destruct Hi as [k Fk].
        unfold lab in EL. rewrite Fk in EL. cbn [option_map fst snd] in EL. unfold in_sub, m'. cbn [cells].
        destruct (fget (mark_kids g p (cells m)) (p ++ [i])) as [k'|]; [|discriminate]. exists k'. split; auto. simpl in EL.
        assert (E2 : labels k' = add_flag g (labels k)) by congruence. simpl. change (mem_flag g (labels k') = true). rewrite E2, mem_add, Nat.eqb_refl. auto.
  - (* a split *)
    assert (LF : forall i, ~ here m (p ++ [i])).
    { intros i Hi. assert (X : false = true); [|discriminate]. rewrite <- HN. apply (has_kids_sub (cells m) p n None Np Fp). exists i. apply insub_None; auto. }
    destruct (split_convex fl p m I Hp LF CV) as [m' [ES _]]. rewrite ES. cbn [bind].
    destruct (split_sinv fl p m m' I ES) as [I' [X [_ [_ [Old [Hr _]]]]]]. pose proof (split_radj fl p m m' I ES) as AD.
    destruct (cell_split_ok fl p m m' I ES) as [n0 [F0 [HN0 [_ [EC _]]]]]. assert (n0 = n) by congruence. subst n0.
    assert (Fm : exists n', fget (cells m') p = Some n' /\ n_data n' = n_data n).
    { pose proof (Old p Hp) as E. unfold info in E. rewrite Fp in E. destruct (fget (cells m') p) as [n'|]; simpl in E; [|discriminate]. exists n'. split; auto. congruence. }
    destruct Fm as [n' [Fp' ED]]. rewrite Fp'.
    exists m', (map fst (kids_of p n') ++ parent_twin_cells m' (n_data n)). split; [reflexivity|]. right.
    assert (KP : kept fl m m').
    { apply lab_kept. intros q x Ex. left. rewrite EC. rewrite lab_split; auto. intros i Li ->. apply (LF i). apply here_fget. unfold lab in Ex.
      destruct (fget (cells m) (p ++ [i])); [eauto|discriminate]. }
    destruct (ADD m' n' I' Fp' ED ltac:(intros i Li; apply Hr; eauto) AD) as [A1 A2].
    split; [exact TC|]. split; [exact NK|]. split; [apply ed_more with m; [constructor|eapply ed_split; exact ES]|]. split; [exact KP|]. split; [exact I'|]. split; [exact AD|]. split; [exact Hr|]. split; [|split; [exact A1|exact A2]].
    intros q. split.
    + intros Sq. destruct (in_dec (list_eq_dec Nat.eq_dec) q (map (fun i => p ++ [i]) [0; 1; 2; 3])) as [Iq|Nq].
      * right. apply in_map_iff in Iq. destruct Iq as [i [<- Ii]]. exists i. split; auto. simpl in Ii; lia.
      * left. revert Sq. apply lab_insub. rewrite EC. symmetry. apply lab_split; auto. intros i Li ->. apply Nq. apply (in_map (fun i => p ++ [i])). simpl. lia.
    + intros [Sq|[i [Li ->]]]; [apply (kept_sub _ _ _ _ KP Sq)|]. rewrite EC. apply split_kid_sub; auto.
Qed.

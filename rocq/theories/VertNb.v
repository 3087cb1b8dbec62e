(** * The cells around a vertex (for C48) *)
From Coq Require Import List Arith Bool Lia QArith.
From Verif Require Import Tree Forest Geom SpecGeom Dcel SpecDcel Quad SpecForest TreeFacts ForestFacts QuadFacts QuadSplit QuadInv SpecQuad QuadNb
  DcelFacts QuadInit QuadUniq QuadStart QuadCoords QuadHist Fem Dof SpecDof Dof2 SpecDof2.
Import ListNotations.
Open Scope nat_scope.

(** ** Walking along a partial injection until the start is reached again *)
Section walk.
Context {X : Type} (nx : X -> option X) (stop : X -> bool) (x0 : X) (dom : X -> Prop) (code : X -> nat) (N : nat).
Hypothesis nx_dom : forall x z, dom x -> nx x = Some z -> dom z.
Hypothesis nx_inj : forall x y z, dom x -> dom y -> nx x = Some z -> nx y = Some z -> x = y.
Hypothesis stop_0 : forall z, dom z -> (stop z = true <-> z = x0).
Hypothesis code_lt : forall x, dom x -> code x < N.
Hypothesis code_inj : forall x y, dom x -> dom y -> code x = code y -> x = y.
Hypothesis dom_0 : dom x0.
Fixpoint walk (fuel : nat) (x : X) : option (list X * bool) :=
  match fuel with
  | 0 => None
  | S k => match nx x with
           | None => Some ([], false)
           | Some z => if stop z then Some ([], true)
                       else match walk k z with Some r => Some (z :: fst r, snd r) | None => None end
           end
  end.
Fixpoint chain (x : X) (l : list X) : Prop :=
  match l with [] => True | z :: r => nx x = Some z /\ chain z r end.
Lemma last_indep (l : list X) a b c : last (c :: l) a = last (c :: l) b.
Proof. revert c. induction l as [|d l IH]; intro c; auto. change (last (d :: l) a = last (d :: l) b). apply IH. Qed.
Lemma chain_dom l : forall x, dom x -> chain x l -> forall z, In z (x :: l) -> dom z.
Proof.
  induction l as [|z l IH]; intros x D C w [<-|H]; auto; [contradiction|]. destruct C as [C1 C2]. apply (IH z); auto. eapply nx_dom; eauto.
Qed.
Lemma chain_next l : forall x, chain x l -> forall z, In z (x :: l) -> z = last l x \/ exists w, nx z = Some w /\ In w l.
Proof.
  induction l as [|y l IH]; intros x C z [<-|H]; auto; [contradiction| |].
  - destruct C as [C _]. right. exists y. split; auto. left; auto.
  - destruct C as [_ C]. destruct (IH y C z H) as [->|[w [E1 E2]]].
    + left. destruct l; auto. cbn [last]. apply last_indep.
    + right. exists w. split; auto. right; auto.
Qed.
Lemma chain_prev l : forall x, chain x l -> forall z, In z l -> exists w, nx w = Some z /\ In w (x :: l).
Proof.
  induction l as [|y l IH]; intros x C z H; [contradiction|]. destruct C as [C1 C2]. destruct H as [<-|H].
  - exists x. split; auto. left; auto.
  - destruct (IH y C2 z H) as [w [E1 E2]]. exists w. split; auto. right; auto.
Qed.
(** the states visited so far, the last one first *)
Fixpoint trail (l : list X) : Prop :=
  match l with
  | [] => False
  | a :: r => match r with [] => a = x0 | b :: _ => nx b = Some a /\ trail r end
  end.
Lemma trail_prev l : trail l -> forall z, In z l -> z <> x0 -> exists v, In v (tl l) /\ nx v = Some z.
Proof.
  induction l as [|a l IH]; intros T z H N0; [contradiction|]. cbn [tl]. destruct l as [|b l].
  - destruct H as [<-|[]]. congruence.
  - destruct T as [T1 T2]. destruct H as [<-|H].
    + exists b. split; auto. left; auto.
    + destruct (IH T2 z H N0) as [v [V1 V2]]. exists v. split; auto. right. destruct l; auto.
Qed.
Lemma bounded_nodup (l : list X) : NoDup l -> (forall x, In x l -> dom x) -> length l <= N.
Proof.
  intros ND D. rewrite <- (map_length code). rewrite <- (seq_length N 0). apply NoDup_incl_length.
  - clear - ND D code_inj. induction l as [|a l IH]; cbn [map]; constructor.
    + apply NoDup_cons_iff in ND. destruct ND as [N1 _]. intro H. apply in_map_iff in H. destruct H as [b [E H]].
      assert (b = a) by (apply code_inj; auto; apply D; [right|left]; auto). subst. auto.
    + apply NoDup_cons_iff in ND. apply IH; [apply ND|]. intros x H. apply D. right; auto.
  - intros y H. apply in_map_iff in H. destruct H as [b [<- H]]. apply in_seq. split; [lia|]. cbn. apply code_lt. auto.
Qed.
Lemma walk_ok fuel : forall x rest, trail (x :: rest) -> NoDup (x :: rest) -> (forall z, In z (x :: rest) -> dom z) ->
  S N <= fuel + length (x :: rest) ->
  exists l b, walk fuel x = Some (l, b) /\ chain x l /\ nx (last l x) = (if b then Some x0 else None) /\ ~ In x0 l /\
    NoDup l /\ forall w, In w l -> ~ In w (x :: rest).
Proof.
  induction fuel as [|k IH]; intros x rest T ND D F.
  - exfalso. pose proof (bounded_nodup _ ND D). lia.
  - cbn [walk]. destruct (nx x) as [z|] eqn:E.
    2:{ exists [], false. cbn [last chain]. do 5 (split; auto). constructor. }
    assert (Dx : dom x) by (apply D; left; auto). assert (Dz : dom z) by (eapply nx_dom; eauto).
    destruct (stop z) eqn:Sz.
    + apply stop_0 in Sz; auto. subst z. exists [], true. cbn [last chain]. do 5 (split; auto). constructor.
    + assert (Nz : z <> x0) by (intro Z; apply stop_0 in Z; auto; congruence).
      assert (Fz : ~ In z (x :: rest)).
      { intro H. destruct (trail_prev _ T z H Nz) as [v [V1 V2]]. cbn [tl] in V1.
        assert (v = x) by (eapply nx_inj; eauto; apply D; right; auto). subst v. apply NoDup_cons_iff in ND. tauto. }
      destruct (IH z (x :: rest)) as [l [b [W [C [La [Nl [NDl Dl]]]]]]].
      * cbn [trail]. split; auto.
      * constructor; auto.
      * intros w [<-|H]; auto.
      * cbn [length] in *. lia.
      * rewrite W. exists (z :: l), b. cbn [fst snd]. split; auto. split; [split; auto|]. split.
        -- replace (last (z :: l) x) with (last l z); auto. destruct l; auto. cbn [last]. apply last_indep.
        -- split; [intros [H|H]; auto|]. split.
           ++ constructor; auto. intro H. apply (Dl z H). left; auto.
           ++ intros w [<-|H]; auto. intro H'. apply (Dl w H). right. auto.
Qed.
Lemma walk_start : exists l b, walk (S N) x0 = Some (l, b) /\ chain x0 l /\ nx (last l x0) = (if b then Some x0 else None) /\ ~ In x0 l /\ NoDup l.
Proof.
  destruct (walk_ok (S N) x0 []) as [l [b [W [C [L [N1 [N2 _]]]]]]]; [..|exists l, b; auto]; cbn [trail length]; auto; try lia.
  - constructor; [intros []|constructor].
  - intros z [<-|[]]. auto.
Qed.
(** a full round is closed in both directions *)
Lemma last_in (l : list X) x : In (last l x) (x :: l).
Proof.
  revert x. induction l as [|a l IH]; intro x; [left; auto|]. right. destruct l as [|b l]; [left; auto|].
  replace (last (a :: b :: l) x) with (last (b :: l) a) by (change (last (b :: l) a = last (b :: l) x); apply last_indep). exact (IH a).
Qed.
Lemma full_next l : chain x0 l -> nx (last l x0) = Some x0 -> forall z, In z (x0 :: l) -> exists w, nx z = Some w /\ In w (x0 :: l).
Proof.
  intros C L z H. destruct (chain_next l x0 C z H) as [->|[w [E1 E2]]].
  - exists x0. split; auto. left; auto.
  - exists w. split; auto. right; auto.
Qed.
Lemma full_prev l : chain x0 l -> nx (last l x0) = Some x0 -> forall z y, dom y -> In z (x0 :: l) -> nx y = Some z -> In y (x0 :: l).
Proof.
  intros C L z y Dy H E. assert (DD := chain_dom l x0 dom_0 C).
  assert (exists w, nx w = Some z /\ In w (x0 :: l)) as [w [E1 E2]].
  { destruct H as [<-|H]; [exists (last l x0); split; auto; apply last_in|apply (chain_prev l x0 C z H)]. }
  replace y with w; auto. eapply nx_inj; eauto.
Qed.
End walk.

(** ** Rotation about a vertex *)
Lemma nodup_app' {X} (l m : list X) : NoDup l -> NoDup m -> (forall x, In x l -> ~ In x m) -> NoDup (l ++ m).
Proof.
  intros Hl Hm H. induction Hl as [|x l Nx Hl IH]; cbn; auto. constructor.
  - rewrite in_app_iff. intros [C|C]; [auto|]. apply (H x); cbn; auto.
  - apply IH. intros y Hy. apply H. right. auto.
Qed.
Lemma find_single {X} (f : X -> bool) l x : In x l -> f x = true -> (forall y, In y l -> f y = true -> y = x) -> find f l = Some x.
Proof.
  induction l as [|a l IH]; [contradiction|]. intros H F U. cbn [find]. destruct (f a) eqn:E.
  - f_equal. apply U; auto. left; auto.
  - destruct H as [->|H]; [congruence|]. apply IH; auto. intros y Hy. apply U. right; auto.
Qed.
Lemma idx_of_nth l : forall k v, NoDup l -> nth_error l k = Some v -> idx_of v l = Some k.
Proof.
  induction l as [|a l IH]; intros k v ND E; [destruct k; discriminate|]. cbn [idx_of]. apply NoDup_cons_iff in ND. destruct ND as [N1 N2].
  destruct k as [|k]; cbn [nth_error] in E.
  - injection E as ->. rewrite Nat.eqb_refl. reflexivity.
  - destruct (Nat.eqb_spec a v) as [->|N]; [exfalso; apply N1; eapply nth_error_In; eauto|]. rewrite (IH k v N2 E). reflexivity.
Qed.
Lemma idx_of_spec l : forall v i, idx_of v l = Some i -> nth_error l i = Some v.
Proof.
  induction l as [|a l IH]; intros v i E; [discriminate|]. cbn [idx_of] in E. destruct (Nat.eqb_spec a v) as [->|N].
  - injection E as <-. reflexivity.
  - destruct (idx_of v l) as [j|] eqn:F; [|discriminate]. injection E as <-. cbn. auto.
Qed.

Section mesh.
Context (pts : list pt) (faces : list (list nat)) (m : mesh2).
Hypothesis QF : quad_faces faces.
Hypothesis M : minv pts faces m.
Let I := m_s _ _ _ M.
Local Notation adj := (face_adj faces).
Local Notation s := (hp m).
Local Notation cstep := (corner_step adj (here m)).
Local Notation orbit := (around_corner adj (here m)).

Lemma twin_iff p k q j : here m p -> here m q -> k < 4 -> j < 4 -> (T s (side m p k) = Some (side m q j) <-> nb adj p k q j).
Proof. intros Hp Hq Lk Lj. rewrite <- (nb_faces pts faces m QF M). apply (twin_nb I); auto. Qed.
Lemma adj_lt r k r' j : adj r k r' j -> k < 4 /\ j < 4.
Proof. intro A. apply (adj_faces pts faces m QF M) in A. eapply radj_lt; eauto. Qed.
Lemma adj_sym r k r' j : adj r k r' j -> adj r' j r k.
Proof. intro A. apply (adj_faces pts faces m QF M) in A. apply (adj_faces pts faces m QF M). apply (radj_sym I). auto. Qed.
Lemma nb_lt p k q j : nb adj p k q j -> k < 4 /\ j < 4.
Proof. intro N. destruct (nb_sides _ _ _ _ _ adj_lt N) as [A [B _]]. auto. Qed.
Lemma sides_here p : here m p -> sides_of m p = map (side m p) [0; 1; 2; 3].
Proof. intro H. apply here_fget in H. destruct H as [c Fc]. unfold sides_of. rewrite Fc. apply (data_sides I p c Fc). Qed.
Lemma sides_nth p k : here m p -> k < 4 -> nth_error (sides_of m p) k = Some (side m p k).
Proof. intros H L. rewrite (sides_here p H). destruct k as [|[|[|[|k]]]]; [reflexivity..|lia]. Qed.
Lemma sides_nodup p : here m p -> NoDup (sides_of m p).
Proof.
  intros H. apply (NoDup_nth _ 0). rewrite (sides_here p H). rewrite map_length. cbn [length]. intros i j Li Lj E.
  assert (Z : forall i, i < 4 -> nth i (map (side m p) [0; 1; 2; 3]) 0 = side m p i) by (intros [|[|[|[|u]]]] Lu; [reflexivity..|lia]).
  rewrite !Z in E by auto. apply (QuadInv.side_inj I p p i j H H Li Lj E).
Qed.
Lemma sides_idx p k : here m p -> k < 4 -> idx_of (side m p k) (sides_of m p) = Some k.
Proof. intros H L. apply idx_of_nth; [apply sides_nodup|apply sides_nth]; auto. Qed.
Lemma verts_nth p k : here m p -> k < 4 -> nth_error (vertices_of m p) k = Some (B s (side m p k)).
Proof. intros H L. unfold vertices_of, cell_vertices. rewrite nth_error_map, sides_nth by auto. reflexivity. Qed.
Lemma verts_len p : here m p -> length (vertices_of m p) = 4.
Proof. intro H. unfold vertices_of, cell_vertices. rewrite map_length, (sides_here p H). reflexivity. Qed.
Lemma verts_list p : here m p -> vertices_of m p = map (fun k => B s (side m p k)) [0; 1; 2; 3].
Proof. intro H. unfold vertices_of, cell_vertices. rewrite (sides_here p H), map_map. reflexivity. Qed.
Lemma verts_nodup p : here m p -> NoDup (vertices_of m p).
Proof.
  intros H. rewrite (verts_list p H). apply (NoDup_nth _ 0). rewrite map_length. cbn [length]. intros i j Li Lj E.
  assert (Z : forall i, i < 4 -> nth i (map (fun k => B s (side m p k)) [0; 1; 2; 3]) 0 = B s (side m p i)) by (intros [|[|[|[|u]]]] Lu; [reflexivity..|lia]).
  rewrite !Z in E by auto. apply (m_c _ _ _ M p); auto.
Qed.
Lemma verts_idx p k : here m p -> k < 4 -> idx_of (B s (side m p k)) (vertices_of m p) = Some k.
Proof. intros H L. apply idx_of_nth; [apply verts_nodup|apply verts_nth]; auto. Qed.

(** the state: a cell and the number of its corner at the vertex *)
Definition via (h : nat) : option (path * nat) :=
  match twin (he s h) with
  | None => None
  | Some t => match hcell (he s t) with
              | None => None
              | Some q => match idx_of t (sides_of m q) with Some j => Some (q, j) | None => None end end
  end.
Lemma via_spec p k q j : here m p -> k < 4 -> (via (side m p k) = Some (q, j) <-> here m q /\ j < 4 /\ T s (side m p k) = Some (side m q j)).
Proof.
  intros Hp Lk. unfold via. split.
  - destruct (T s (side m p k)) as [t|] eqn:E; [|discriminate]. destruct (twin_side I p k t Hp Lk E) as [q' [j' [Hq [Lj [-> _]]]]].
    destruct (side_good I q' j' Hq Lj) as [_ [-> _]]. rewrite sides_idx by auto. intros [= <- <-]. auto.
  - intros [Hq [Lj E]]. rewrite E. destruct (side_good I q j Hq Lj) as [_ [-> _]]. rewrite sides_idx by auto. reflexivity.
Qed.
Lemma via_none p k : here m p -> k < 4 -> via (side m p k) = None -> T s (side m p k) = None.
Proof.
  intros Hp Lk E. destruct (T s (side m p k)) as [t|] eqn:ET; auto. exfalso.
  destruct (twin_side I p k t Hp Lk ET) as [q [j [Hq [Lj [-> _]]]]].
  assert (Z : via (side m p k) = Some (q, j)) by (apply via_spec; auto). congruence.
Qed.
Definition fw (x : path * nat) : option (path * nat) := via (side m (fst x) ((snd x + 3) mod 4)).
Definition bw (x : path * nat) : option (path * nat) :=
  match via (side m (fst x) (snd x)) with Some (q, j) => Some (q, (j + 1) mod 4) | None => None end.
Context (v : nat).
Definition dom (x : path * nat) : Prop := here m (fst x) /\ snd x < 4 /\ B s (side m (fst x) (snd x)) = v.
Lemma fw_bw x y : here m (fst x) -> snd x < 4 -> here m (fst y) -> snd y < 4 -> (fw x = Some y <-> bw y = Some x).
Proof.
  destruct x as [p c], y as [q d]. cbn [fst snd]. intros Hp Lc Hq Ld. unfold fw, bw. cbn [fst snd]. rewrite via_spec by auto. split.
  - intros [_ [_ E]]. destruct (side_good I p _ Hp (m4_lt (c + 3))) as [L _]. destruct (i_t _ (s_h m I) _ _ L E) as [_ [E' _]].
    rewrite (proj2 (via_spec q d p ((c + 3) mod 4) Hq Ld)) by auto. rewrite m4_1 by auto. reflexivity.
  - destruct (via (side m q d)) as [[q' j]|] eqn:V; [|discriminate]. apply via_spec in V; auto. destruct V as [Hq' [Lj E]].
    intro E2. assert (q' = p) by congruence. assert (Ec : (j + 1) mod 4 = c) by congruence. clear E2. subst q'. rewrite <- Ec, m4_2 by auto. split; auto. split; auto.
    destruct (side_good I q d Hq Ld) as [L _]. destruct (i_t _ (s_h m I) _ _ L E) as [_ [E' _]]. auto.
Qed.
Lemma fw_dom x y : dom x -> fw x = Some y -> dom y.
Proof.
  destruct x as [p c], y as [q d]. unfold dom, fw. cbn [fst snd]. intros [Hp [Lc Ev]] E. apply via_spec in E; auto. destruct E as [Hq [Ld E]].
  split; auto. split; auto. destruct (side_good I p _ Hp (m4_lt (c + 3))) as [L [_ [G _]]]. destruct (i_t _ (s_h m I) _ _ L E) as [_ [_ [_ [_ V]]]].
  destruct (V (u_r _ (m_u _ _ _ M) _ L)) as [V1 V2]. rewrite m4_1 in G by auto. congruence.
Qed.
Lemma bw_dom x y : dom x -> bw x = Some y -> dom y.
Proof.
  destruct x as [p c], y as [q d]. unfold dom, bw. cbn [fst snd]. intros [Hp [Lc Ev]] E.
  destruct (via (side m p c)) as [[q' j]|] eqn:V; [|discriminate]. apply via_spec in V; auto. destruct V as [Hq [Lj V]].
  assert (q' = q) by congruence. assert (Ec : (j + 1) mod 4 = d) by congruence. clear E. subst q'. rewrite <- Ec. split; auto. split; auto. destruct (side_good I p _ Hp Lc) as [L [_ [_ _]]]. destruct (side_good I q _ Hq Lj) as [L' [_ [G _]]].
  destruct (i_t _ (s_h m I) _ _ L V) as [_ [_ [_ [_ VV]]]].
  destruct (VV (u_r _ (m_u _ _ _ M) _ L)) as [V1 V2]. congruence.
Qed.
Lemma step_cases x y : here m (fst x) -> snd x < 4 -> (cstep x y <-> here m (fst y) /\ snd y < 4 /\ (fw x = Some y \/ bw x = Some y)).
Proof.
  destruct x as [p c], y as [q d]. cbn [fst snd]. intros Hp Lc. unfold fw, bw. cbn [fst snd]. split.
  - intros [_ [Hq [k [j [N H]]]]]. cbn [fst snd] in *. destruct (nb_lt _ _ _ _ N) as [Lk Lj]. pose proof (proj2 (twin_iff p k q j Hp Hq Lk Lj) N) as E.
    split; auto. destruct H as [[-> ->]|[-> ->]].
    + split; auto. right. rewrite (proj2 (via_spec p k q j Hp Lk)) by auto. reflexivity.
    + split; auto. left. rewrite m4_2 by auto. apply via_spec; auto.
  - intros [Hq [Ld H]]. split; [exact Hp|]. split; [exact Hq|]. cbn [fst snd]. destruct H as [H|H].
    + apply via_spec in H; auto. destruct H as [_ [_ E]]. exists ((c + 3) mod 4), d. split; [apply twin_iff; auto|]. right. rewrite m4_1 by auto. auto.
    + destruct (via (side m p c)) as [[q' j]|] eqn:V; [|discriminate]. apply via_spec in V; auto. destruct V as [_ [Lj V]]. assert (q' = q) by congruence. assert (Ec : (j + 1) mod 4 = d) by congruence. clear H. subst q'.
      exists c, j. split; [apply twin_iff; auto|]. auto.
Qed.
(** the loops of get_neighbors(vertex) *)
Lemma incident_fw x : dom x -> incident m v false (fst x) = Some (side m (fst x) ((snd x + 3) mod 4)).
Proof.
  destruct x as [p c]. unfold dom. cbn [fst snd]. intros [Hp [Lc Ev]]. unfold incident.
  pose proof (sides_here p Hp) as SH. unfold sides_of in SH. pose proof Hp as Hp'. apply here_fget in Hp'. destruct Hp' as [cc Fc]. rewrite Fc in *.
  assert (HD : forall k, k < 4 -> Hd s (side m p k) = B s (side m p ((k + 1) mod 4))) by (intros k Lk; destruct (side_good I p k Hp Lk) as [_ [_ [G _]]]; auto).
  apply find_single.
  - rewrite SH. apply in_map. pose proof (m4_lt (c + 3)) as Z. destruct ((c + 3) mod 4) as [|[|[|[|u]]]]; cbn; auto; lia.
  - cbv beta iota. rewrite HD by auto. rewrite m4_1 by auto. apply Nat.eqb_eq. auto.
  - intros h Hh E. cbv beta iota in E. apply Nat.eqb_eq in E. rewrite SH in Hh. apply in_map_iff in Hh. destruct Hh as [k [<- Hk]].
    assert (Lk : k < 4) by (cbn in Hk; lia). rewrite HD in E by auto. rewrite <- Ev in E. apply (m_c _ _ _ M p) in E; auto.
    f_equal. rewrite <- E. symmetry. apply m4_2. auto.
Qed.
Lemma incident_bw x : dom x -> incident m v true (fst x) = Some (side m (fst x) (snd x)).
Proof.
  destruct x as [p c]. unfold dom. cbn [fst snd]. intros [Hp [Lc Ev]]. unfold incident.
  pose proof (sides_here p Hp) as SH. unfold sides_of in SH. pose proof Hp as Hp'. apply here_fget in Hp'. destruct Hp' as [cc Fc]. rewrite Fc in *.
  apply find_single.
  - rewrite SH. apply in_map. destruct c as [|[|[|[|u]]]]; cbn; auto; lia.
  - cbv beta iota. apply Nat.eqb_eq. auto.
  - intros h Hh E. cbv beta iota in E. apply Nat.eqb_eq in E. rewrite SH in Hh. apply in_map_iff in Hh. destruct Hh as [k [<- Hk]].
    assert (Lk : k < 4) by (cbn in Hk; lia). rewrite <- Ev in E. apply (m_c _ _ _ M p) in E; auto.
Qed.
Lemma neighbors_via p k : here m p -> k < 4 -> get_neighbors m (side m p k) None = Ok (option_map fst (via (side m p k))).
Proof.
  intros Hp Lk. unfold get_neighbors. destruct (via (side m p k)) as [[q j]|] eqn:V.
  - apply via_spec in V; auto. destruct V as [Hq [Lj E]]. rewrite E. destruct (side_good I q j Hq Lj) as [_ [-> _]]. reflexivity.
  - rewrite (via_none p k Hp Lk V). reflexivity.
Qed.
Context (x0 : path * nat).
Hypothesis D0 : dom x0.
Definition stopb (z : path * nat) : bool := if path_dec (fst z) (fst x0) then true else false.
Lemma stop_spec z : dom z -> (stopb z = true <-> z = x0).
Proof.
  intros [Hz [Lz Ez]]. unfold stopb. destruct (path_dec (fst z) (fst x0)) as [E|N].
  - split; auto. intros _. destruct D0 as [H0 [L0 E0]]. destruct z as [p c], x0 as [q d]. cbn [fst snd] in *. subst q. f_equal.
    apply (m_c _ _ _ M p); auto. congruence.
  - split; [discriminate|]. intros ->. congruence.
Qed.
Definition step_of (reverse : bool) := if reverse then bw else fw.
Lemma around_walk fuel : forall reverse x, dom x ->
  around fuel m v reverse (fst x0) (fst x) =
  match walk (step_of reverse) stopb fuel x with Some r => Ok (map fst (fst r), snd r) | None => Err OutOfFuel end.
Proof.
  induction fuel as [|k IH]; intros reverse x D; [reflexivity|]. cbn [around walk].
  assert (E : (match incident m v reverse (fst x) with Some h => get_neighbors m h None | None => Ok None end) = Ok (option_map fst (step_of reverse x))).
  { pose proof D as [Hx [Lx _]]. destruct reverse; cbn [step_of].
    - rewrite incident_bw, neighbors_via by auto. unfold bw. destruct (via _) as [[q j]|]; reflexivity.
    - rewrite incident_fw, neighbors_via by auto. reflexivity. }
  rewrite E. cbn [bind].
  assert (DZ : forall z, step_of reverse x = Some z -> dom z) by (intros z; destruct reverse; [apply bw_dom|apply fw_dom]; auto).
  destruct (step_of reverse x) as [z|]; cbn [option_map]; [|reflexivity]. unfold stopb at 1.
  destruct (path_dec (fst z) (fst x0)); [reflexivity|]. rewrite IH by auto.
  destruct (walk (step_of reverse) stopb k z) as [[l b]|]; reflexivity.
Qed.
Lemma code_lt x : dom x -> side m (fst x) (snd x) < nh s.
Proof. intros [H [L _]]. apply (side_good I); auto. Qed.
Lemma code_inj x y : dom x -> dom y -> side m (fst x) (snd x) = side m (fst y) (snd y) -> x = y.
Proof. intros [H [L _]] [H' [L' _]] E. destruct x, y. apply (QuadInv.side_inj I) in E; auto. cbn in E. destruct E. congruence. Qed.
Lemma fw_inj x y z : dom x -> dom y -> fw x = Some z -> fw y = Some z -> x = y.
Proof.
  intros Dx Dy E1 E2. pose proof (fw_dom _ _ Dx E1) as Dz. destruct Dx as [A1 [A2 _]], Dy as [B1 [B2 _]], Dz as [C1 [C2 _]].
  apply fw_bw in E1; auto. apply fw_bw in E2; auto. congruence.
Qed.
Lemma bw_inj x y z : dom x -> dom y -> bw x = Some z -> bw y = Some z -> x = y.
Proof.
  intros Dx Dy E1 E2. pose proof (bw_dom _ _ Dx E1) as Dz. destruct Dx as [A1 [A2 _]], Dy as [B1 [B2 _]], Dz as [C1 [C2 _]].
  apply fw_bw in E1; auto. apply fw_bw in E2; auto. congruence.
Qed.
Lemma orbit_closed (S : path * nat -> Prop) : (forall x, S x -> dom x) -> S x0 ->
  (forall x y, S x -> dom y -> fw x = Some y -> S y) -> (forall x y, S x -> dom y -> bw x = Some y -> S y) ->
  forall y, orbit x0 y -> S y.
Proof.
  intros SD S0 F1 F2 y O. remember x0 as a eqn:Ea. revert Ea. induction O as [a|a b z O IH C]; intros ->; auto.
  specialize (IH D0 S0 eq_refl). pose proof (SD _ IH) as [Hb [Lb Vb]]. apply step_cases in C; auto. destruct C as [Hz [Lz [C|C]]].
  - apply (F1 b); auto. exact (fw_dom b z (SD _ IH) C).
  - apply (F2 b); auto. exact (bw_dom b z (SD _ IH) C).
Qed.
Lemma chain_orbit reverse l : forall x, dom x -> orbit x0 x -> chain (step_of reverse) x l -> forall y, In y l -> orbit x0 y.
Proof.
  induction l as [|z l IH]; intros x D O C y H; [contradiction|]. destruct C as [C1 C2].
  assert (Dz : dom z) by (destruct reverse; [eapply bw_dom|eapply fw_dom]; eauto).
  assert (Oz : orbit x0 z).
  { eapply ac_step; [exact O|]. destruct D as [A1 [A2 _]], Dz as [B1 [B2 _]]. apply step_cases; auto. split; auto. split; auto.
    destruct reverse; [right|left]; auto. }
  destruct H as [<-|H]; auto. apply (IH z); auto.
Qed.
(** get_neighbors(vertex): exactly the other cells around the vertex, once each *)
Definition restrict (fl : option flag) (l : list path) : list path :=
  match fl with Some g => filter (fun q => marked_at (cells m) q g) l | None => l end.
Theorem vertex_neighbors_full : exists (l : list path) (b : bool), (forall fl : option flag, vertex_neighbors m (fst x0) v fl = Ok (if b then l else restrict fl l)) /\
  (b = true <-> forall y, orbit x0 y -> fw y <> None) /\ NoDup l /\
  forall q, In q l <-> q <> fst x0 /\ exists d, orbit x0 (q, d).
Proof.
  unfold vertex_neighbors. rewrite around_walk by auto. cbn [step_of].
  destruct (walk_start fw stopb x0 dom (fun x => side m (fst x) (snd x)) (nh s) fw_dom fw_inj stop_spec code_lt code_inj D0) as [F [b [W [CF [LF [NF NDF]]]]]].
  rewrite W. cbn [bind fst snd].
  assert (OF : forall y, In y F -> orbit x0 y) by (apply (chain_orbit false F x0 D0 (ac_refl _ _ _) CF)).
  assert (DF := chain_dom fw dom fw_dom F x0 D0 CF).
  assert (OUT : forall y l, In y l -> ~ In x0 l -> dom y -> fst y <> fst x0).
  { intros y l H N D E. assert (y = x0) by (apply stop_spec; auto; unfold stopb; destruct (path_dec (fst y) (fst x0)); congruence). subst. auto. }
  assert (DI : forall y z, dom y -> dom z -> fst y = fst z -> y = z).
  { intros [p c] [q d] [A1 [A2 A3]] [B1 [B2 B3]] E. cbn [fst snd] in *. subst q. f_equal. apply (m_c _ _ _ M p); auto. congruence. }
  assert (NM : forall l, (forall y, In y l -> dom y) -> NoDup l -> NoDup (map fst l)).
  { clear - DI M QF D0. induction l as [|a l IH]; intros D N; cbn [map]; constructor; apply NoDup_cons_iff in N; destruct N as [N1 N2].
    - intro H. apply in_map_iff in H. destruct H as [b [E H]]. apply N1. rewrite <- (DI b a); auto; apply D; [right|left]; auto.
    - apply IH; auto. intros y H. apply D. right; auto. }
  destruct b.
  - exists (map fst F), true. split; auto. split.
    { split; auto. intros _ y O. assert (H : In y (x0 :: F)).
      { apply (orbit_closed (fun x => In x (x0 :: F))); auto; [left; auto| |].
        - intros x z Hx _ E. destruct (full_next fw x0 dom (fun x => side m (fst x) (snd x)) code_inj D0 F CF LF x Hx) as [w [E1 E2]]. replace z with w by congruence. auto.
        - intros x z Hx Dy E. apply (full_prev fw x0 dom fw_dom fw_inj D0 F CF LF x z Dy Hx).
          pose proof (DF _ Hx) as [A1 [A2 _]]. destruct Dy as [B1 [B2 _]]. apply fw_bw; auto. }
      destruct (full_next fw x0 dom (fun x => side m (fst x) (snd x)) code_inj D0 F CF LF y H) as [w [E1 E2]]. congruence. }
    split; [apply NM; auto; intros y H; apply DF; right; auto|]. intro q. rewrite in_map_iff. split.
    + intros [[q' d] [<- H]]. split; [eapply OUT; eauto; apply DF; right; auto|]. exists d. apply OF; auto.
    + intros [Nq [d O]]. assert (H : In (q, d) (x0 :: F)).
      { apply (orbit_closed (fun x => In x (x0 :: F))); auto; [left; auto| |].
        - intros x y Hx _ E. destruct (full_next fw x0 dom (fun x => side m (fst x) (snd x)) code_inj D0 F CF LF x Hx) as [w [E1 E2]]. replace y with w by congruence. auto.
        - intros x y Hx Dy E. apply (full_prev fw x0 dom fw_dom fw_inj D0 F CF LF x y Dy Hx).
          pose proof (DF _ Hx) as [A1 [A2 _]]. destruct Dy as [B1 [B2 _]]. apply fw_bw; auto. }
      destruct H as [H|H]; [exfalso; apply Nq; rewrite H; reflexivity|]. exists (q, d). auto.
  - rewrite around_walk by auto. cbn [step_of].
    destruct (walk_start bw stopb x0 dom (fun x => side m (fst x) (snd x)) (nh s) bw_dom bw_inj stop_spec code_lt code_inj D0) as [G [b [W' [CG [LG [NG NDG]]]]]].
    rewrite W'. cbn [bind fst snd].
    assert (OG : forall y, In y G -> orbit x0 y) by (apply (chain_orbit true G x0 D0 (ac_refl _ _ _) CG)).
    assert (DG := chain_dom bw dom bw_dom G x0 D0 CG).
    assert (b = false).
    { destruct b; auto. exfalso.
      assert (A : forall z, In z (x0 :: G) -> exists w, fw z = Some w /\ In w (x0 :: G)).
      { intros z Hz. assert (exists w, bw w = Some z /\ In w (x0 :: G)) as [w [E1 E2]].
        { destruct Hz as [<-|Hz]; [exists (last G x0); split; auto; apply last_in|apply (chain_prev bw G x0 CG z Hz)]. }
        exists w. split; auto. pose proof (DG _ E2) as [A1 [A2 _]]. pose proof (DG _ Hz) as [B1 [B2 _]]. apply fw_bw; auto. }
      assert (Bd : forall l x, In x (x0 :: G) -> chain fw x l -> exists w, fw (last l x) = Some w).
      { induction l as [|z l IHl]; intros x Hx C; [destruct (A x Hx) as [w [E _]]; eauto|]. destruct C as [C1 C2]. destruct (A x Hx) as [w [E1 E2]].
        assert (w = z) by congruence. subst w. destruct (IHl z E2 C2) as [w E]. exists w. rewrite <- E. f_equal.
        destruct l; auto. cbn [last]. apply last_indep. }
      destruct (Bd F x0 (or_introl eq_refl) CF) as [w E]. congruence. }
    subst b. exists (map fst F ++ rev (map fst G)), false. split; [reflexivity|]. split.
    { split; [discriminate|]. intro Z. exfalso. apply (Z (last F x0)); auto.
      destruct (last_in F x0) as [<-|H]; [apply ac_refl|apply OF; auto]. }
    split.
    { apply nodup_app'.
      - apply NM; auto. intros y H. apply DF. right; auto.
      - apply NoDup_rev. apply NM; auto. intros y H. apply DG. right; auto.
      - intros q H1 H2. apply in_rev in H2. apply in_map_iff in H1, H2. destruct H1 as [y [E1 H1]], H2 as [z [E2 H2]].
        assert (y = z) by (apply DI; [apply DF; right; auto|apply DG; right; auto|congruence]). subst z.
        assert (K : forall l x, (forall u, In u (x :: l) -> dom u) -> chain bw x l -> ~ In x F -> forall u, In u l -> ~ In u F).
        { clear - CF LF DF M QF D0 I. induction l as [|z l IH]; intros x D C N u H; [contradiction|]. destruct C as [C1 C2].
          assert (Nz : ~ In z F).
          { intro H'. pose proof (D x (or_introl eq_refl)) as [A1 [A2 _]]. pose proof (D z (or_intror (or_introl eq_refl))) as [B1 [B2 _]].
            apply fw_bw in C1; auto. destruct (chain_next fw F x0 CF z (or_intror H')) as [->|[w [E1 E2]]]; [congruence|].
            apply N. replace x with w by congruence. auto. }
          destruct H as [<-|H]; auto. apply (IH z); auto. intros y Hy. apply D. right; auto. }
        apply (K G x0 DG CG NF y); auto. }
    intro q. rewrite in_app_iff, <- in_rev, !in_map_iff. split.
    + intros [[[q' d] [<- H]]|[[q' d] [<- H]]]; cbn [fst]; [split; [apply (OUT _ F H NF); apply DF; right; auto|exists d; auto]|split; [apply (OUT _ G H NG); apply DG; right; auto|exists d; auto]].
    + intros [Nq [d O]]. assert (H : In (q, d) (x0 :: F) \/ In (q, d) (x0 :: G)).
      { apply (orbit_closed (fun x => In x (x0 :: F) \/ In x (x0 :: G))); auto.
        - intros x [H|H]; auto.
        - left. left. auto.
        - intros x y Hx Dy E. assert (K : In x (x0 :: F) -> In y (x0 :: F)).
          { intro H. destruct (chain_next fw F x0 CF x H) as [->|[w [E1 E2]]]; [congruence|]. right. replace y with w by congruence. auto. }
          destruct Hx as [Hx|Hx]; auto. destruct Hx as [<-|Hx]; [left; apply K; left; auto|]. right.
          destruct (chain_prev bw G x0 CG x Hx) as [w [E1 E2]]. replace y with w; auto.
          pose proof (DG _ E2) as [A1 [A2 _]]. pose proof (DG _ (or_intror Hx)) as [B1 [B2 _]]. apply fw_bw in E1; auto. congruence.
        - intros x y Hx Dy E. assert (K : In x (x0 :: G) -> In y (x0 :: G)).
          { intro H. destruct (chain_next bw G x0 CG x H) as [->|[w [E1 E2]]]; [congruence|]. right. replace y with w by congruence. auto. }
          destruct Hx as [Hx|Hx]; auto. destruct Hx as [<-|Hx]; [right; apply K; left; auto|]. left.
          destruct (chain_prev fw F x0 CF x Hx) as [w [E1 E2]]. replace y with w; auto.
          pose proof (DF _ E2) as [A1 [A2 _]]. pose proof (DF _ (or_intror Hx)) as [B1 [B2 _]]. apply fw_bw in E1; auto. congruence. }
      destruct H as [[H|H]|[H|H]]; [exfalso; apply Nq; rewrite H; reflexivity|left; exists (q, d); auto|exfalso; apply Nq; rewrite H; reflexivity|right; exists (q, d); auto].
Qed.
(** without a flag *)
Corollary vertex_neighbors_ok : exists l, vertex_neighbors m (fst x0) v None = Ok l /\ NoDup l /\
  forall q, In q l <-> q <> fst x0 /\ exists d, orbit x0 (q, d).
Proof.
  destruct vertex_neighbors_full as [l [b [E [_ [N H]]]]]. exists l. rewrite E. split; [destruct b; reflexivity|auto].
Qed.
End mesh.
